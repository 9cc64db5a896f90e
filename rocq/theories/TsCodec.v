(** Model of the code that [write_schema] in /repo/src/generate_typescript.rs emits for a declaration,
    as an interpreter over the type. Definitions only.

    Values are those of Types.v. Differences of representation: a JavaScript [number] does not
    distinguish NaN bit patterns ([js_bits]); a string is modelled by its sequence of Unicode scalar
    values (strings with lone surrogates, which [TextEncoder] replaces by U+FFFD, are not modelled);
    [Unit[]] is modelled by its length. Memory is assumed to suffice for [new ArrayBuffer(size)]. *)
From Verif Require Export TsPrim Types.

(** Every NaN is the same [number]; it is written as the canonical quiet NaN. *)
Definition is_nan (b : N) : bool := ((b / 2 ^ 52) mod 2048 =? 2047) && negb (b mod 2 ^ 52 =? 0).
Definition js_bits (b : N) : N := if is_nan b then 9221120237041090560 else b.

(** The generated [...Atlas] types: a number, the encoded string ([Uint8Array]), or an object with
    [$size] and the atlases of the parts. *)
Inductive jatlas :=
| JSize (n : N)
| JStr (encoded : bytes)
| JArr (n : N) (elements : list jatlas)
| JStruct (n : N) (fields : list (option jatlas))
| JChoice (i : N) (n : N) (payload : jatlas) (fallback : option jatlas).

(** generate_typescript.rs 1944-1975: [write_atlas_lookup]. *)
Definition jlookup (a : jatlas) : N :=
  match a with
  | JSize n => n | JStr encoded => lenN encoded
  | JArr n _ => n | JStruct n _ => n | JChoice _ n _ _ => n
  end.

(** 1915-1933: the [U64] case of [write_atlas_calculation]. *)
Definition ts_atlas_u64 (is_field : bool) (n : N) : N :=
  if is_field then
    if n =? 0 then 0 else if n <? 567382630219904 then ts_varint_size n else 8
  else ts_varint_size n.

(** 1724-1941 [write_atlas_calculation], 643-731 (struct [atlas]), 1038-1115 (choice [atlas]). Sums are
    over unbounded [N] (a [number] is exact below 2^53). Disagreements of value and type (excluded by
    TypeScript's typing) give [JSize 0]. The choice's [if ('f' in message)] tests select the field the
    message was built for; see TsNames.v for when they do. *)
Fixpoint ts_atlas (is_field : bool) (v : val) (t : ty) {struct v} : jatlas :=
  match v, t with
  | VUnits n, TArray TUnit => JSize (ts_atlas_u64 is_field n)
  | VArr vs, TArray e =>
      match e with
      | TBool | TS64 | TU64 =>
          JSize (fold_left (fun x v => x + jlookup (ts_atlas false v e)) vs 0)
      | TF64 => JSize (8 * lenN vs)
      | _ =>
          let elements := map (fun v => ts_atlas false v e) vs in
          JArr (fold_left (fun x a => x + (ts_varint_size (jlookup a) + jlookup a)) elements 0)
               elements
      end
  | VBool b, TBool => JSize (if is_field then (if b then 1 else 0) else 1)
  | VBytes bs, TBytes => JSize (lenN bs)
  | VString s, TString => JStr (utf8_encode s)
  | VF64 b, TF64 => JSize (if is_field then (if b =? 0 then 0 else 8) else 8)
  | VS64 z, TS64 => JSize (ts_atlas_u64 is_field (Z.to_N (ts_zigzag_encode z)))
  | VU64 n, TU64 => JSize (ts_atlas_u64 is_field n)
  | VStruct ovs, TStruct fs =>
      let atlases := map2 (fun ov f => match ov with
                             | Some v => Some (ts_atlas true v (f_type f))
                             | None => None
                             end) ovs fs in
      JStruct (fold_left N.add
        (map2 (fun f oa => match oa with
           | Some a => ts_header_size (f_index f) (jlookup a) (integer_encoded (f_type f))
                       + jlookup a
           | None => 0
           end) fs atlases) 0) atlases
  | VChoice i p fb, TChoice fs =>
      match find_field i fs with
      | None => JSize 0
      | Some f =>
          let pa := ts_atlas true p (f_type f) in
          let sz := ts_header_size (f_index f) (jlookup pa) (integer_encoded (f_type f))
                    + jlookup pa in
          match f_rule f, fb with
          | Required, _ => JChoice i sz pa None
          | _, Some v' => let fa := ts_atlas true v' t in
                          JChoice i (sz + jlookup fa) pa (Some fa)
          | _, None => JSize 0
          end
      end
  | _, _ => JSize 0
  end.

(** Statements that write through [dataView] and advance [offset]. *)
Definition jwriter := bytes -> N -> jres (bytes * N).
Definition jskip : jwriter := fun buf off => JOk (buf, off).
Definition jthen (a b : jwriter) : jwriter := fun buf off =>
  jbind (a buf off) (fun bo => b (fst bo) (snd bo)).
Definition jseq (l : list jwriter) : jwriter := fold_right jthen jskip l.
(** [setX(offset, data)] followed by [offset += data.length]. *)
Definition jput (data : bytes) : jwriter := fun buf off =>
  jbind (vset buf off data) (fun buf => JOk (buf, off + lenN data)).
Definition jvarint (n : N) : jwriter := fun buf off => ts_serialize_varint buf off n.
Definition jheader (index size : N) (ie : bool) : jwriter := fun buf off =>
  ts_serialize_header buf off index size ie.
Definition jthrow : jwriter := fun _ _ => JError.

(** 2171-2204: [write_u64_serialization_invocation]. *)
Definition ts_ser_u64 (is_field : bool) (varint : N) : jwriter :=
  if is_field then
    if 567382630219903 <? varint then jput (le_bytes 8 varint)
    else if negb (varint =? 0) then jvarint varint else jskip
  else jvarint varint.

(** 1987-2169 [write_serialization_invocation], 735-801 (struct [serializeWithAtlasUnsafe]) and
    1119-1196 (choice [serializeWithAtlasUnsafe]). [jthrow] stands for the [TypeError] that reading a
    property of [undefined] gives when the atlas has the wrong shape. *)
Fixpoint ts_ser (is_field : bool) (v : val) (t : ty) (a : jatlas) {struct v} : jwriter :=
  match v, t with
  | VUnits n, TArray TUnit => ts_ser_u64 is_field n
  | VArr vs, TArray e =>
      match e with
      | TBool | TS64 | TU64 | TF64 => jseq (map (fun v => ts_ser false v e a) vs)
      | _ =>
          match a with
          | JArr _ elements =>
              jseq (map2 (fun v pa => jthen (jvarint (jlookup pa)) (ts_ser false v e pa)) vs elements)
          | _ => jthrow
          end
      end
  | VBool b, TBool => ts_ser_u64 is_field (if b then 1 else 0)
  | VBytes bs, TBytes => jput bs
  | VString _, TString => match a with JStr encoded => jput encoded | _ => jthrow end
  | VF64 b, TF64 =>
      if is_field then (if negb (jlookup a =? 0) then jput (le_bytes 8 (js_bits b)) else jskip)
      else jput (le_bytes 8 (js_bits b))
  | VS64 z, TS64 => ts_ser_u64 is_field (Z.to_N (ts_zigzag_encode z))
  | VU64 n, TU64 => ts_ser_u64 is_field n
  | VUnit, TUnit => jskip
  | VStruct ovs, TStruct fs =>
      match a with
      | JStruct _ atlases =>
          jseq (map2 (fun ov fa => match ov, snd fa with
            | Some v, Some pa =>
                jthen (jheader (f_index (fst fa)) (jlookup pa) (integer_encoded (f_type (fst fa))))
                      (ts_ser true v (f_type (fst fa)) pa)
            | _, _ => jskip
            end) ovs (combine fs atlases))
      | _ => jthrow
      end
  | VChoice i p fb, TChoice fs =>
      match find_field i fs, a with
      | Some f, JChoice j _ pa fa =>
          if i =? j then
            jthen (jthen (jheader (f_index f) (jlookup pa) (integer_encoded (f_type f)))
                         (ts_ser true p (f_type f) pa))
              (match f_rule f, fb, fa with
               | Required, _, _ => jskip
               | _, Some v', Some a' => ts_ser true v' t a'
               | _, _, _ => jthrow
               end)
          else jthrow
      | _, _ => jthrow
      end
  | _, _ => jthrow
  end.

(** 1458-1476: [size]. *)
Definition ts_size (v : val) (t : ty) : N :=
  match t with
  | TStruct [] | TChoice [] => 0
  | _ => jlookup (ts_atlas true v t)
  end.

(** 1479-1513: [serialize]: the contents of the returned [ArrayBuffer], and the final offset (which
    the code drops). *)
Definition ts_serialize_full (v : val) (t : ty) : jres (bytes * N) :=
  let message_atlas := ts_atlas true v t in
  let array_buffer := repeat 0 (N.to_nat (jlookup message_atlas)) in
  ts_ser true v t message_atlas array_buffer 0.
Definition ts_serialize (v : val) (t : ty) : jres bytes := jmap fst (ts_serialize_full v t).

(** ** Deserialization *)

(** [TextDecoder.decode] (WHATWG Encoding Standard, "UTF-8 decoder", not fatal): a state machine;
    ill-formed sequences give U+FFFD. [need]: bytes still needed; [lo], [hi]: bounds of the next one. *)
Definition utf8_first (b : N) (k : N -> N -> N -> N -> list N) : list N :=
  if b <? 128 then b :: k 0 0 128 191
  else if inr 194 223 b then k 1 (b - 192) 128 191
  else if inr 224 239 b then
    k 2 (b - 224) (if b =? 224 then 160 else 128) (if b =? 237 then 159 else 191)
  else if inr 240 244 b then
    k 3 (b - 240) (if b =? 240 then 144 else 128) (if b =? 244 then 143 else 191)
  else 65533 :: k 0 0 128 191.
Fixpoint utf8_lossy (need cp lo hi : N) (bs : bytes) : list N :=
  match bs with
  | [] => if need =? 0 then [] else [65533]
  | b :: bs' =>
      if need =? 0 then utf8_first b (fun n c l h => utf8_lossy n c l h bs')
      else if inr lo hi b then
        let cp' := 64 * cp + (b - 128) in
        if need =? 1 then cp' :: utf8_lossy 0 0 128 191 bs'
        else utf8_lossy (need - 1) cp' 128 191 bs'
      else 65533 :: utf8_first b (fun n c l h => utf8_lossy n c l h bs')
  end.
(** The decoder drops one leading U+FEFF ([ignoreBOM] is not set). *)
Definition strip_bom (s : list N) : list N :=
  match s with c :: s' => if c =? 65279 then s' else s | [] => [] end.
Definition text_decode (bs : bytes) : list N := strip_bom (utf8_lossy 0 0 128 191 bs).

(** 2487-2525: the [U64] case; offset afterwards and value. *)
Definition ts_dec_u64 (is_field : bool) (payload_size : N) (v : view) (off : N) : jres (N * N) :=
  if is_field then
    if payload_size =? 0 then JOk (off, 0)
    else if payload_size =? 8 then jbind (get_u64 v off) (fun n => JOk (off + 8, n))
    else ts_deserialize_varint v off
  else ts_deserialize_varint v off.

(** 2419-2452: the [F64] case. *)
Definition ts_dec_f64 (is_field : bool) (payload_size : N) (v : view) (off : N) : jres (N * N) :=
  if is_field && (payload_size =? 0) then JOk (off, 0)
  else jbind (get_u64 v off) (fun n => JOk (off + 8, js_bits n)).

Definition jsnd {A B} (f : A -> B) (x : jres (N * A)) : jres (N * B) :=
  jbind x (fun oa => JOk (fst oa, f (snd oa))).

(** 2305-2347: arrays of [Bool]/[F64]/[S64]/[U64]; a [RangeError] from the element ends the array and
    leaves [offset] where it was. *)
Fixpoint ts_small_loop (fuel : nat) (element : N -> jres (N * val)) (off : N)
  : jres (N * list val) :=
  match fuel with
  | O => JFuel
  | S fuel' =>
      match element off with
      | JOk (off', v) => jsnd (cons v) (ts_small_loop fuel' element off')
      | JRange => JOk (off, [])
      | JError => JError
      | JFuel => JFuel
      end
  end.

Definition tdecoder := N -> view -> N -> jres (N * val).

(** 2225-2299: arrays of sized elements; only a [RangeError] from the size ends the array. *)
Fixpoint ts_sized_loop (fuel : nat) (element : tdecoder) (v : view) (off : N)
  : jres (N * list val) :=
  match fuel with
  | O => JFuel
  | S fuel' =>
      match ts_deserialize_varint v off with
      | JOk (off1, sz) =>
          jbind (new_view (vbuf v) (voff v + off1) sz) (fun v' =>
          jbind (element sz v' 0) (fun op =>
            jsnd (cons (snd op)) (ts_sized_loop fuel' element v (fst op + off1))))
      | JRange => JOk (off, [])
      | JError => JError
      | JFuel => JFuel
      end
  end.

(** [$field] local variables keyed by index; the newest assignment is in front. *)
Fixpoint tassoc {A} (i : N) (l : list (N * A)) : option A :=
  match l with
  | [] => None
  | (j, a) :: l' => if j =? i then Some a else tassoc i l'
  end.

(** 838-920: the loop of a struct's [deserializeUnsafe]. *)
Fixpoint ts_struct_loop (fuel : nat) (ds : list (N * tdecoder)) (slots : list (N * val))
  (v : view) (off : N) : jres (list (N * val)) :=
  match fuel with
  | O => JFuel
  | S fuel' =>
      match ts_deserialize_header v off with
      | JOk (off1, i, sz) =>
          match tassoc i ds with
          | Some d =>
              jbind (new_view (vbuf v) (voff v + off1) sz) (fun v' =>
              jbind (d sz v' 0) (fun op =>
                ts_struct_loop fuel' ds ((i, snd op) :: slots) v (fst op + off1)))
          | None => ts_struct_loop fuel' ds slots v (off1 + sz)
          end
      | JRange => JOk slots
      | JError => JError
      | JFuel => JFuel
      end
  end.

(** 1218-1309: the loop of a choice's [deserializeUnsafe]; the fallback of an optional case is read by
    a recursive call on a view of the rest. *)
Fixpoint ts_choice_loop (fuel : nat) (ds : list (N * (rule * tdecoder))) (v : view) (off : N)
  : jres val :=
  match fuel with
  | O => JFuel
  | S fuel' =>
      jbind (ts_deserialize_header v off) (fun hdr =>
        match hdr with
        | (off1, i, sz) =>
            match tassoc i ds with
            | Some (r, d) =>
                jbind (new_view (vbuf v) (voff v + off1) sz) (fun v' =>
                jbind (d sz v' 0) (fun op =>
                  match r with
                  | Optional =>
                      let off2 := fst op + off1 in
                      if vlen v <? off2 then JRange
                      else
                        jbind (new_view (vbuf v) (voff v + off2) (vlen v - off2)) (fun v2 =>
                        jbind (ts_choice_loop fuel' ds v2 0) (fun fb =>
                          JOk (VChoice i (snd op) (Some fb))))
                  | _ => JOk (VChoice i (snd op) None)
                  end))
            | None => ts_choice_loop fuel' ds v (off1 + sz)
            end
        end)
  end.

(** 922-949: the required-fields check. *)
Definition ts_missing (fs : list (field_of ty)) (slots : list (N * val)) : bool :=
  existsb (fun f => match f_rule f, tassoc (f_index f) slots with
                    | Required, None => true
                    | _, _ => false
                    end) fs.

(** 2215-2533 [write_deserialization_invocation], 803-972 (struct) and 1200-1314 (choice)
    [deserializeUnsafe]. Result: [offset] afterwards and [payload]. *)
Fixpoint ts_decode (t : ty) (is_field : bool) (payload_size : N) (v : view) (off : N) {struct t}
  : jres (N * val) :=
  let fuel := S (length (vbuf v)) in
  match t with
  | TArray e =>
      match e with
      | TUnit =>
          jbind (ts_dec_u64 is_field payload_size v off) (fun on =>
            if snd on <? 4294967296 then JOk (fst on, VUnits (snd on)) else JRange)
      | TBool | TS64 | TU64 | TF64 =>
          jsnd VArr (ts_small_loop fuel (fun off => ts_decode e false 0 v off) off)
      | _ => jsnd VArr (ts_sized_loop fuel (ts_decode e false) v off)
      end
  | TBool => jsnd (fun n => VBool (negb (n =? 0))) (ts_dec_u64 is_field payload_size v off)
  | TBytes => JOk (vlen v, VBytes (takeN (vlen v - off) (dropN (voff v + off) (vbuf v))))
  | TF64 => jsnd VF64 (ts_dec_f64 is_field payload_size v off)
  | TS64 => jsnd (fun n => VS64 (ts_zigzag_decode (Z.of_N n)))
              (ts_dec_u64 is_field payload_size v off)
  | TString =>
      if vlen v <? off then JRange
      else JOk (vlen v,
             VString (text_decode (takeN (vlen v - off) (dropN (voff v + off) (vbuf v)))))
  | TU64 => jsnd VU64 (ts_dec_u64 is_field payload_size v off)
  | TUnit => JOk (off, VUnit)
  | TStruct fs =>
      jbind (ts_struct_loop fuel (map (fun f => (f_index f, ts_decode (f_type f) true)) fs) [] v 0)
        (fun slots =>
           if ts_missing fs slots then JError
           else JOk (vlen v, VStruct (map (fun f => tassoc (f_index f) slots) fs)))
  | TChoice fs =>
      jbind (ts_choice_loop fuel
               (map (fun f => (f_index f, (f_rule f, ts_decode (f_type f) true))) fs) v 0)
        (fun value => JOk (vlen v, value))
  end.

(** What a caller of [deserialize] gets: a message or an [Error] object. ([Stuck]: the artefact.) *)
Inductive ts_result := TsMessage (v : val) | TsError | TsStuck.

(** 1516-1555: [deserialize] on a view ([ArrayBuffer] arguments are wrapped in a view of the whole
    buffer, typed arrays in a view of their range). *)
Definition ts_deserialize (t : ty) (v : view) : ts_result :=
  match ts_decode t true (vlen v) v 0 with
  | JOk (_, value) => TsMessage value
  | JRange | JError => TsError
  | JFuel => TsStuck
  end.
Definition whole (buf : bytes) : view := mkView buf 0 (lenN buf).

(** A message as JavaScript holds it. *)
Fixpoint js_val (v : val) : val :=
  match v with
  | VF64 b => VF64 (js_bits b)
  | VArr vs => VArr (map js_val vs)
  | VStruct ovs => VStruct (map (fun ov => match ov with Some v => Some (js_val v) | None => None end)
                              ovs)
  | VChoice i p fb =>
      VChoice i (js_val p) (match fb with Some v' => Some (js_val v') | None => None end)
  | _ => v
  end.
