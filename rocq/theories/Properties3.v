(** Property theorems about the generated TypeScript: C06, C25-C29, C53, C54. See MANIFEST.json. *)
From Verif Require Import TsTop Examples1.

(** C06: sizes, ZigZag, the bytes written into a buffer at any offset, and reading at any offset of any
    view (of [bs] within a larger buffer). *)
Theorem ts_varint_size_agrees : forall n, ts_varint_size n = varint_size_from_value n.
Proof. exact ts_varint_size_eq. Qed.
Print Assumptions ts_varint_size_agrees.
Theorem ts_zigzag_encode_agrees : forall z, i64_ok z -> ts_zigzag_encode z = Z.of_N (zigzag_encode z).
Proof. exact ts_zigzag_encode_eq. Qed.
Print Assumptions ts_zigzag_encode_agrees.
Theorem ts_zigzag_decode_agrees : forall n, n < two64 -> ts_zigzag_decode (Z.of_N n) = zigzag_decode n.
Proof. exact ts_zigzag_decode_eq. Qed.
Print Assumptions ts_zigzag_decode_agrees.
Theorem ts_varint_bytes_agree : forall n buf off, n < two64 -> off + lenN (serialize_varint n) <= lenN buf ->
  ts_serialize_varint buf off n =
    JOk (takeN off buf ++ serialize_varint n ++ dropN (off + lenN (serialize_varint n)) buf,
         off + lenN (serialize_varint n)).
Proof. exact ts_writes_varint. Qed.
Print Assumptions ts_varint_bytes_agree.
Theorem ts_varint_reading_agrees : forall pre bs post off, bytes_ok pre -> bytes_ok bs -> bytes_ok post ->
  off <= lenN bs ->
  ts_deserialize_varint (mkView (pre ++ bs ++ post) (lenN pre) (lenN bs)) off =
    match deserialize_varint (dropN off bs) with
    | Ok n rest => JOk (lenN bs - lenN rest, n)
    | _ => JRange
    end.
Proof. exact ts_reads_varint. Qed.
Print Assumptions ts_varint_reading_agrees.
Theorem ts_header_size_agrees : forall i sz ie, i <= max_index ->
  ts_header_size i sz ie = field_header_size i sz ie.
Proof. exact ts_header_size_eq. Qed.
Print Assumptions ts_header_size_agrees.
Theorem ts_header_bytes_agree : forall i sz ie buf off, i <= max_index -> sz < two64 ->
  off + lenN (serialize_field_header i sz ie) <= lenN buf ->
  ts_serialize_header buf off i sz ie =
    JOk (takeN off buf ++ serialize_field_header i sz ie ++ dropN (off + lenN (serialize_field_header i sz ie)) buf,
         off + lenN (serialize_field_header i sz ie)).
Proof. exact ts_writes_header. Qed.
Print Assumptions ts_header_bytes_agree.
Theorem ts_header_reading_agrees : forall pre bs post off, bytes_ok pre -> bytes_ok bs -> bytes_ok post ->
  off <= lenN bs ->
  ts_deserialize_header (mkView (pre ++ bs ++ post) (lenN pre) (lenN bs)) off =
    match deserialize_field_header (dropN off bs) with
    | Ok (i, sz) rest => JOk (lenN bs - lenN rest, i, sz)
    | _ => JRange
    end.
Proof. exact ts_reads_header. Qed.
Print Assumptions ts_header_reading_agrees.

(** C25: the returned buffer holds exactly the Rust bytes; the final offset is its length (it is filled
    completely) and no write was out of range (the result is not an error). *)
Theorem ts_and_rust_bytes_agree : forall v t bs, wt DOut v t -> ty_wf t -> js_exact v -> size v t < 2 ^ 53 ->
  serialize v t = Some bs ->
  ts_serialize_full v t = JOk (bs, lenN bs) /\ ts_serialize v t = JOk bs /\ ts_size v t = lenN bs.
Proof. exact ts_same_bytes. Qed.
Print Assumptions ts_and_rust_bytes_agree.
(** With other NaNs too: they are written as the canonical NaN; sizes are unchanged. *)
Theorem ts_serialize_fills_its_buffer : forall v t, wt DOut v t -> ty_wf t -> size v t < 2 ^ 53 ->
  exists bs, ts_serialize_full v t = JOk (bs, lenN bs) /\ ts_serialize v t = JOk bs /\
    lenN bs = ts_size v t /\ ts_size v t = size v t /\ serialize (js_val v) t = Some bs.
Proof. exact ts_fills_buffer. Qed.
Print Assumptions ts_serialize_fills_its_buffer.

(** C26: the message may lie anywhere in a larger buffer. *)
Theorem ts_round_trips : forall v t pre bs post, wt DOut v t -> ty_wf t -> ts_faithful v -> size v t < 2 ^ 53 ->
  ts_serialize v t = JOk bs -> bytes_ok pre -> bytes_ok post ->
  ts_deserialize t (mkView (pre ++ bs ++ post) (lenN pre) (lenN bs)) = TsMessage (js_val (to_in v t)).
Proof. exact ts_round_trip. Qed.
Print Assumptions ts_round_trips.
Theorem js_exact_messages_are_unchanged : forall v t, js_exact v -> js_val (to_in v t) = to_in v t.
Proof. exact js_to_in_exact. Qed.
Print Assumptions js_exact_messages_are_unchanged.
Theorem only_nans_change : forall v, same_but_nans v (js_val v).
Proof. exact only_nans. Qed.
Print Assumptions only_nans_change.
(** Without the condition on strings the round trip fails: U+FEFF in front of a string is lost. *)
Theorem ts_round_trips_every_string_refuted :
  ~ (forall s bs, str_ok s -> ts_serialize (VStruct [Some (VString s)]) (TStruct [mkF 0 Required TString]) = JOk bs ->
       ts_deserialize (TStruct [mkF 0 Required TString]) (whole bs) = TsMessage (VStruct [Some (VString s)])).
Proof.
  intros H. specialize (H [65279; 65] _ ltac:(constructor; [right; lia|constructor; [left; lia|constructor]]) eq_refl).
  vm_compute in H. discriminate H.
Qed.
Print Assumptions ts_round_trips_every_string_refuted.

(** C27: a message that is read from the bytes alone is read the same inside any larger buffer. *)
Theorem ts_messages_are_confined : forall t pre bs post v, bytes_ok pre -> bytes_ok bs -> bytes_ok post ->
  ts_deserialize t (whole bs) = TsMessage v ->
  ts_deserialize t (mkView (pre ++ bs ++ post) (lenN pre) (lenN bs)) = TsMessage v.
Proof. exact ts_message_confined. Qed.
Print Assumptions ts_messages_are_confined.
(** The converse fails: bytes after the view reach the message. *)
Theorem ts_never_reads_outside_the_view_refuted :
  ~ (forall t bs post1 post2, bytes_ok bs -> bytes_ok post1 -> bytes_ok post2 ->
       ts_deserialize t (mkView (bs ++ post1) 0 (lenN bs)) = ts_deserialize t (mkView (bs ++ post2) 0 (lenN bs))).
Proof.
  intros H.
  specialize (H (TStruct [mkF 0 Required TBytes]) (spec_header 0 3 false ++ [65]) [7; 7] [8; 9]
                ltac:(vm_compute; repeat constructor) ltac:(repeat constructor) ltac:(repeat constructor)).
  vm_compute in H. discriminate H.
Qed.
Print Assumptions ts_never_reads_outside_the_view_refuted.

(** C28: the fuel of the model never runs out, i.e. every loop ends; every exception is caught. *)
Theorem ts_deserialize_returns : forall t w, view_ok w ->
  (exists v, ts_deserialize t w = TsMessage v) \/ ts_deserialize t w = TsError.
Proof.
  intros t w Hv. pose proof (ts_returns t w Hv). destruct (ts_deserialize t w); [left; eauto|now right|congruence].
Qed.
Print Assumptions ts_deserialize_returns.

(** C29: each reads what the other writes, also across compatible schemas. *)
Theorem safe_schemas_are_compatible : forall a b, ty_wf a -> ty_wf b -> safe a b -> compat a b /\ compat b a.
Proof. intros a b Ha Hb H. split; apply safe_compat; auto. now apply safe_sym. Qed.
Print Assumptions safe_schemas_are_compatible.
Theorem rust_reads_ts_messages : forall v a b bs, wt DOut v a -> ty_wf a -> ty_wf b -> compat a b ->
  size v a < 2 ^ 53 -> ts_serialize v a = JOk bs ->
  deserialize isize_max b bs = Ok (js_val (migrate v a b)) [].
Proof. exact rust_reads_ts. Qed.
Print Assumptions rust_reads_ts_messages.
Theorem ts_reads_rust_messages : forall v a b pre bs post, wt DOut v a -> ty_wf a -> ty_wf b -> compat a b ->
  ts_faithful v -> size v a < 2 ^ 53 -> serialize v a = Some bs -> bytes_ok pre -> bytes_ok post ->
  ts_deserialize b (mkView (pre ++ bs ++ post) (lenN pre) (lenN bs)) = TsMessage (js_val (migrate v a b)).
Proof. exact ts_reads_rust. Qed.
Print Assumptions ts_reads_rust_messages.
(** They do not agree on every input, not even when both accept it. *)
Theorem readers_agree_on_accepted_inputs_refuted :
  ~ (forall t bs v rest w, ty_wf t -> bytes_ok bs -> deserialize isize_max t bs = Ok v rest ->
       ts_deserialize t (whole bs) = TsMessage w -> w = js_val v).
Proof.
  intros H.
  specialize (H (TStruct [mkF 0 Required TU64])
    (spec_header 0 1 true ++ spec_varint 1 ++ spec_header 0 1 true ++ spec_varint 2)
    (VStruct [Some (VU64 1)]) [] (VStruct [Some (VU64 2)]) ltac:(wf) ltac:(vm_compute; repeat constructor)
    ltac:(vm_compute; reflexivity) ltac:(vm_compute; reflexivity)).
  discriminate H.
Qed.
Print Assumptions readers_agree_on_accepted_inputs_refuted.
(** TypeScript accepts ill-formed UTF-8 that Rust rejects. *)
Theorem ts_accepts_only_what_rust_accepts_refuted :
  ~ (forall t bs w, ty_wf t -> bytes_ok bs -> ts_deserialize t (whole bs) = TsMessage w ->
       exists v rest, deserialize isize_max t bs = Ok v rest).
Proof.
  intros H.
  destruct (H (TStruct [mkF 0 Required TString]) (spec_header 0 1 false ++ [255])
    (VStruct [Some (VString [65533])]) ltac:(wf) ltac:(vm_compute; repeat constructor)
    ltac:(vm_compute; reflexivity)) as (v & rest & E).
  vm_compute in E. discriminate E.
Qed.
Print Assumptions ts_accepts_only_what_rust_accepts_refuted.
(** Rust accepts a field whose declared size exceeds the message, and an array cut inside an element
    followed by another field; TypeScript rejects both. *)
Theorem rust_accepts_only_what_ts_accepts_refuted :
  ~ (forall t bs v rest, ty_wf t -> bytes_ok bs -> deserialize isize_max t bs = Ok v rest ->
       exists w, ts_deserialize t (whole bs) = TsMessage w).
Proof.
  intros H.
  destruct (H (TStruct [mkF 0 Required TBytes]) (spec_header 0 3 false ++ [65])
    (VStruct [Some (VBytes [65])]) [] ltac:(wf) ltac:(vm_compute; repeat constructor)
    ltac:(vm_compute; reflexivity)) as (w & E).
  vm_compute in E. discriminate E.
Qed.
Print Assumptions rust_accepts_only_what_ts_accepts_refuted.

(** C53 *)
Theorem ts_messages_are_well_typed : forall t w v, ty_wf t -> view_ok w ->
  ts_deserialize t w = TsMessage v -> wt DIn v t.
Proof. exact ts_deserialized_typed. Qed.
Print Assumptions ts_messages_are_well_typed.

(** C54: structs: fields the reader does not know are skipped, the last occurrence of a field counts
    (Rust takes the first: C16), a missing required field is an error; choices: as in Rust (C17). *)
Theorem ts_struct_reads_last_occurrence : forall gs its w, ty_wf (TStruct gs) -> Forall (item_ok gs) its ->
  Forall item_faithful its -> lenN (flat_map item_bytes its) < two64 -> view_ok w ->
  vrest w 0 = flat_map item_bytes its ->
  ((exists g, In g gs /\ f_rule g = Required /\ forall it, In it its -> item_index it <> f_index g) /\
   ts_deserialize (TStruct gs) w = TsError) \/
  (~ (exists g, In g gs /\ f_rule g = Required /\ forall it, In it its -> item_index it <> f_index g) /\
   ts_deserialize (TStruct gs) w =
     TsMessage (VStruct (map (fun g => option_map js_val (first_value gs (rev its) (f_index g))) gs))).
Proof. exact ts_struct_items. Qed.
Print Assumptions ts_struct_reads_last_occurrence.
Theorem ts_choice_uses_first_recognised_field : forall gs its f v g w rest, ty_wf (TChoice gs) ->
  (forall it, In it its -> item_ok gs it /\ find_field (item_index it) gs = None) ->
  item_ok gs (IField f v) -> ts_faithful v -> find_field (f_index f) gs = Some g ->
  lenN (flat_map item_bytes its ++ item_bytes (IField f v)) < two64 -> view_ok w ->
  vrest w 0 = flat_map item_bytes its ++ item_bytes (IField f v) ++ rest ->
  let k := lenN (flat_map item_bytes its ++ item_bytes (IField f v)) in
  let x := js_val (migrate v (f_type f) (f_type g)) in
  ts_deserialize (TChoice gs) w =
    match f_rule g with
    | Optional =>
        match ts_deserialize (TChoice gs) (mkView (vbuf w) (voff w + k) (vlen w - k)) with
        | TsMessage fb => TsMessage (VChoice (f_index f) x (Some fb))
        | other => other
        end
    | _ => TsMessage (VChoice (f_index f) x None)
    end.
Proof. exact ts_choice_reads. Qed.
Print Assumptions ts_choice_uses_first_recognised_field.
Theorem ts_choice_without_recognised_field_fails : forall gs its w, ty_wf (TChoice gs) ->
  (forall it, In it its -> item_ok gs it /\ find_field (item_index it) gs = None) ->
  lenN (flat_map item_bytes its) < two64 -> view_ok w -> vrest w 0 = flat_map item_bytes its ->
  ts_deserialize (TChoice gs) w = TsError.
Proof. exact ts_choice_none. Qed.
Print Assumptions ts_choice_without_recognised_field_fails.
