(** Model of the code generator of /repo/src/generate_typescript.rs: the syntax trees of what it writes. Definitions only.
    The functions have the structure of those of the generator; [ts_code] in TsText.v is the text. *)
From Verif Require Export TsSyntax RustGen.

(** Fixed names. *)
Definition jx (s : String.string) : jexpr := XVar (txt s).
Definition num (n : N) : jexpr := XNum Plain n.
Definition prop_of (e : jexpr) (s : String.string) : jexpr := XProp e (txt s).
Definition jconst (s : String.string) (e : jexpr) : jstmt := JLet true (txt s) None (Some e).
Definition jlet (s : String.string) (e : jexpr) : jstmt := JLet false (txt s) None (Some e).
Definition jdecl (s : String.string) : jstmt := JLet false (txt s) None None.
Definition jset (s : String.string) (e : jexpr) : jstmt := JAssign (txt s) e.
Definition jadd (s : String.string) (e : jexpr) : jstmt := JOpAssign (txt s) BAdd e.
Definition jcall (f : String.string) (args : list jexpr) : jexpr := XCall false (CFn (txt f)) args.
Definition jplus (a b : jexpr) : jexpr := XBin None BAdd a b.
Definition tt (s : String.string) : ttype := TtPath [txt s].
Definition jif (c : jexpr) (b : list jstmt) : jstmt := JIf [(c, b)] None.
Definition jif_else (c : jexpr) (a b : list jstmt) : jstmt := JIf [(c, a)] (Some b).
Definition set_atlas (e : jexpr) : jstmt := jset "payloadAtlas" e.

(** generate_typescript.rs 1944-1975: [write_atlas_lookup]. *)
Definition tgen_lookup (t : sty) : jexpr :=
  match t with
  | SyArray inner => if sized_sty inner then prop_of (jx "payloadAtlas") "$size" else jx "payloadAtlas"
  | SyCustom _ _ => prop_of (XParen false (XAs (jx "payloadAtlas") (TtObj [(txt "$size", tt "number")]))) "$size"
  | SyString => prop_of (jx "payloadAtlas") "byteLength"
  | _ => jx "payloadAtlas"
  end.

(** 1828, 1790, 2001 and so on: the loop over [oldPayload]. *)
Definition over_old_payload (b : list jstmt) : jstmt :=
  JFor (txt "i") (prop_of (jx "oldPayload") "length") (jconst "payload" (XIndex (jx "oldPayload") (jx "i")) :: b).
(** 1905-1932: the case of [U64] in [write_atlas_calculation]. *)
Definition tgen_atlas_u64 (is_field : bool) : list jstmt :=
  let varint := set_atlas (jcall "varintSizeFromValue" [jx "payload"]) in
  if is_field then
    [JIf [(XBin None BEq (jx "payload") (XBig false 0), [set_atlas (num 0)]);
          (XBin None BLt (jx "payload") (XBig true 567382630219904), [varint])] (Some [set_atlas (num 8)])]
  else [varint].

(** 2171-2204: [write_u64_serialization_invocation]. *)
Definition serialize_varint_stmt (e : jexpr) : jstmt := jset "offset" (jcall "serializeVarint" [jx "dataView"; jx "offset"; e]).
Definition tgen_ser_u64 (is_field : bool) : list jstmt :=
  if is_field then
    [JIf [(XBin None BGt (jx "varint") (XBig true 567382630219903),
           [JExpr (XMethod false (jx "dataView") MtSetBigUint64 [jx "offset"; jx "varint"; XBool true]); jadd "offset" (num 8)]);
          (XBin None BNe (jx "varint") (XBig false 0), [serialize_varint_stmt (jx "varint")])] None]
  else [serialize_varint_stmt (jx "varint")].
Definition ser_varint_block (is_field : bool) (varint : jexpr) : list jstmt :=
  [JBlock (jconst "varint" varint :: tgen_ser_u64 is_field)].
(** 2079-2088, 2137-2146: the view of the bytes that are written to. *)
Definition target_buffer : jstmt :=
  jconst "targetBuffer" (XNew true ClsUint8Array
    [prop_of (jx "dataView") "buffer"; prop_of (jx "dataView") "byteOffset"; prop_of (jx "dataView") "byteLength"]).

(** 2260-2272, 2325-2337, 849-861: a [RangeError] ends the loop. *)
Definition break_on_range_error : list jstmt :=
  [jif_else (XInstance (jx "e") ClsRangeError) [JBreak] [JThrow (jx "e")]].
(** 2275-2284, 884-893, 1240-1249: the view of a payload, from which [offset] counts until it has been read. *)
Definition sub_view (size : jexpr) : list jstmt :=
  [jconst "dataView" (XNew true ClsDataView
     [prop_of (jx "dataViewAlias") "buffer"; jplus (prop_of (jx "dataViewAlias") "byteOffset") (jx "offset"); size]);
   jconst "oldOffset" (jx "offset"); jset "offset" (num 0)].
(** 2488-2523: the case of [U64] in [write_deserialization_invocation]. *)
Definition tgen_deser_u64 (is_field : bool) : list jstmt :=
  let varint := JAssignTuple [txt "offset"; txt "payload"] (jcall "deserializeVarint" [jx "dataView"; jx "offset"]) in
  jdecl "payload" ::
  (if is_field then
     [JBlock [JSwitch (jx "payloadSize")
        [(num 0, (false, [jset "payload" (XBig false 0); JBreak]));
         (num 8, (false, [jset "payload" (XMethod false (jx "dataView") MtGetBigUint64 [jx "offset"; XBool true]);
                          jadd "offset" (num 8); JBreak]))]
        (false, [varint; JBreak])]]
   else [varint]).
(** 2372-2396: a payload that is computed from an integer. *)
Definition from_u64 (is_field : bool) (e : jexpr) : list jstmt :=
  [jdecl "payload";
   JBlock [jdecl "newPayload"; JBlock (tgen_deser_u64 is_field ++ [jset "newPayload" e]); jset "payload" (jx "newPayload")]].
Definition to_end : jstmt := jset "offset" (prop_of (jx "dataView") "byteLength").

Section Schema.
Context (u : unicode) (ns : namespace) (s : sschema).

(** Names; [write_identifier] is [ts_name] in Identifier.v. *)
Definition ttype_name (d : ident) (x : suffix) : str := ts_name u d Pascal (Some x).
Definition tfield_name (f : sfield) : str := ts_name u (sf_name f) Camel None.
(** 667, 698, 822 and so on: the local variable for a field. *)
Definition tlocal_name (f : sfield) : str := txt "$" ++ tfield_name f.
(** 1648-1669: [write_custom_type]. That [imports[import]] may panic is dealt with in [module_panics]. *)
Definition ttype_path (import : option ident) (name : ident) (x : option suffix) : list str :=
  match ts_path u s ns import name x with Some p => p | None => [] end.

(** 1546-1645: [write_type]. *)
Fixpoint tgen_type (t : sty) (x : suffix) : ttype :=
  match t with
  | SyArray inner =>
      match x with
      | SAtlas => if sized_sty inner then TtObj [(txt "$size", tt "number"); (txt "$elements", TtArray (tgen_type inner x))]
                  else tt "number"
      | _ => TtArray (tgen_type inner x)
      end
  | SyCustom import name => TtPath (ttype_path import name (Some x))
  | SyF64 => tt "number"
  | _ =>
      match x with
      | SAtlas => match t with SyString => tt "Uint8Array" | _ => tt "number" end
      | _ => tt (match t with
                 | SyBool => "boolean" | SyBytes => "ArrayBuffer" | SyS64 | SyU64 => "bigint" | SyString => "string"
                 | _ => "null"
                 end)%string
      end
  end.

(** 1724-1941: [write_atlas_calculation]. *)
Fixpoint tgen_atlas (t : sty) (is_field : bool) : list jstmt :=
  match t with
  | SyArray inner =>
      match inner with
      | SyArray _ | SyBytes | SyCustom _ _ | SyString =>
          [JBlock
             [jlet "size" (num 0); jlet "elements" (XArr false []); jconst "oldPayload" (jx "payload");
              over_old_payload
                (jdecl "payloadAtlas" :: tgen_atlas inner false ++
                 [JExpr (XMethod false (jx "elements") MtPush [jx "payloadAtlas"]);
                  jconst "payloadSize" (tgen_lookup inner);
                  jadd "size" (jplus (jcall "varintSizeFromValue" [XCall false (CGlobal GBigInt) [jx "payloadSize"]]) (jx "payloadSize"))]);
              set_atlas (XObj false [(txt "$size", Some (jx "size")); (txt "$elements", Some (jx "elements"))])]]
      | SyBool | SyS64 | SyU64 =>
          [JBlock
             [jlet "arraySize" (num 0); jconst "oldPayload" (jx "payload");
              over_old_payload (jlet "payloadAtlas" (num 0) :: tgen_atlas inner false ++ [jadd "arraySize" (jx "payloadAtlas")]);
              set_atlas (jx "arraySize")]]
      | SyF64 => [set_atlas (XBin None BMul (num 8) (prop_of (jx "payload") "length"))]
      | SyUnit =>
          [JBlock
             [jconst "oldPayload" (jx "payload");
              JBlock (jconst "payload" (XCall false (CGlobal GBigInt) [prop_of (jx "oldPayload") "length"]) :: tgen_atlas_u64 is_field)]]
      end
  | SyBool => if is_field then [jif_else (jx "payload") [set_atlas (num 1)] [set_atlas (num 0)]] else [set_atlas (num 1)]
  | SyBytes => [set_atlas (prop_of (jx "payload") "byteLength")]
  | SyString => [set_atlas (XMethod false (jx "textEncoder") MtEncode [jx "payload"])]
  | SyCustom import name => [set_atlas (XCall false (CPath (ttype_path import name None) (txt "atlas")) [jx "payload"])]
  | SyF64 =>
      if is_field then
        [jif_else (XCall false (CGlobal GObjectIs) [jx "payload"; num 0]) [set_atlas (num 0)] [set_atlas (num 8)]]
      else [set_atlas (num 8)]
  | SyS64 =>
      if is_field then
        [JBlock
           [jconst "zigzag" (jcall "zigzagEncode" [jx "payload"]);
            JIf [(XBin None BEq (jx "zigzag") (XBig false 0), [set_atlas (num 0)]);
                 (XBin None BLt (jx "zigzag") (XBig true 567382630219904), [set_atlas (jcall "varintSizeFromValue" [jx "zigzag"])])]
              (Some [set_atlas (num 8)])]]
      else [set_atlas (jcall "varintSizeFromValue" [jcall "zigzagEncode" [jx "payload"]])]
  | SyU64 => tgen_atlas_u64 is_field
  | SyUnit => [set_atlas (num 0)]
  end.

(** 1987-2169: [write_serialization_invocation]. *)
Fixpoint tgen_ser (t : sty) (is_field : bool) : list jstmt :=
  match t with
  | SyArray inner =>
      match inner with
      | SyArray _ | SyBytes | SyCustom _ _ | SyString =>
          [JBlock
             [jconst "oldPayload" (jx "payload"); jconst "oldPayloadAtlas" (jx "payloadAtlas");
              over_old_payload
                (jconst "payloadAtlas" (XIndex (prop_of (jx "oldPayloadAtlas") "$elements") (jx "i")) ::
                 serialize_varint_stmt (XCall false (CGlobal GBigInt) [tgen_lookup inner]) :: tgen_ser inner false)]]
      | SyBool | SyS64 | SyU64 | SyF64 =>
          [JBlock [jconst "oldPayload" (jx "payload"); over_old_payload (tgen_ser inner false)]]
      | SyUnit => ser_varint_block is_field (XCall false (CGlobal GBigInt) [prop_of (jx "payload") "length"])
      end
  | SyBool => ser_varint_block is_field (XCond (jx "payload") (XBig false 1) (XBig false 0))
  | SyBytes =>
      [JBlock
         [jconst "sourceBuffer" (XNew false ClsUint8Array [jx "payload"]); target_buffer;
          JExpr (XMethod false (jx "targetBuffer") MtSet [jx "sourceBuffer"; jx "offset"]);
          jadd "offset" (prop_of (jx "sourceBuffer") "byteLength")]]
  | SyCustom import name =>
      [jset "offset" (XCall false (CPath (ttype_path import name None) (txt "serializeWithAtlasUnsafe"))
                        [jx "dataView"; jx "offset"; jx "payload"; jx "payloadAtlas"])]
  | SyF64 =>
      let write := [JExpr (XMethod false (jx "dataView") MtSetFloat64 [jx "offset"; jx "payload"; XBool true]); jadd "offset" (num 8)] in
      if is_field then [jif (XBin None BNe (tgen_lookup t) (num 0)) write] else write
  | SyS64 => ser_varint_block is_field (jcall "zigzagEncode" [jx "payload"])
  | SyString =>
      [JBlock
         [target_buffer; JExpr (XMethod false (jx "targetBuffer") MtSet [jx "payloadAtlas"; jx "offset"]);
          jadd "offset" (prop_of (jx "payloadAtlas") "byteLength")]]
  | SyU64 => ser_varint_block is_field (jx "payload")
  | SyUnit => []
  end.

(** 2215-2533: [write_deserialization_invocation]. *)
Fixpoint tgen_deser (t : sty) (is_field : bool) : list jstmt :=
  match t with
  | SyArray inner =>
      let new_array := JLet false (txt "payload") (Some (TtArray (tgen_type inner SIn))) (Some (XArr false [])) in
      let push := JExpr (XMethod false (jx "payloadAlias") MtPush [jx "payload"]) in
      match inner with
      | SyArray _ | SyBytes | SyCustom _ _ | SyString =>
          [new_array;
           JBlock
             [jconst "dataViewAlias" (jx "dataView"); jconst "payloadAlias" (jx "payload");
              JBlock
                [JWhile (XBool true)
                   ([jdecl "payloadSizeBig";
                     JTry [JAssignTuple [txt "offset"; txt "payloadSizeBig"] (jcall "deserializeVarint" [jx "dataViewAlias"; jx "offset"])]
                       (txt "e") break_on_range_error] ++
                    sub_view (XCall false (CGlobal GNumber) [jx "payloadSizeBig"]) ++ tgen_deser inner false ++
                    [jadd "offset" (jx "oldOffset"); push])]]]
      | SyBool | SyS64 | SyU64 | SyF64 =>
          [new_array;
           JBlock
             [jconst "payloadAlias" (jx "payload");
              JBlock [JWhile (XBool true) [JTry (tgen_deser inner false ++ [push]) (txt "e") break_on_range_error]]]]
      | SyUnit =>
          from_u64 is_field
            (XAs (XMethod false (XCall false (CGlobal GArray) [XCall false (CGlobal GNumber) [jx "payload"]]) MtFill [XNull])
                 (TtArray (tt "null")))
      end
  | SyBool => from_u64 is_field (XBin None BNe (jx "payload") (XBig false 0))
  | SyBytes =>
      [jlet "payload" (XMethod true (prop_of (jx "dataView") "buffer") MtSlice
         [jplus (prop_of (jx "dataView") "byteOffset") (jx "offset");
          jplus (prop_of (jx "dataView") "byteOffset") (prop_of (jx "dataView") "byteLength")]);
       to_end]
  | SyCustom import name =>
      [jlet "payload" (XCall false (CPath (ttype_path import name None) (txt "deserializeUnsafe")) [jx "dataView"]); to_end]
  | SyF64 =>
      let read := XMethod false (jx "dataView") MtGetFloat64 [jx "offset"; XBool true] in
      if is_field then
        [jdecl "payload";
         JBlock [JSwitch (jx "payloadSize") [(num 0, (false, [jset "payload" (num 0); JBreak]))]
                   (false, [jset "payload" read; jadd "offset" (num 8); JBreak])]]
      else [jlet "payload" read; jadd "offset" (num 8)]
  | SyS64 => tgen_deser_u64 is_field ++ [jset "payload" (jcall "zigzagDecode" [jx "payload"])]
  | SyString =>
      [jlet "payload" (XMethod true (jx "textDecoder") MtDecode
         [XNew true ClsUint8Array
            [prop_of (jx "dataView") "buffer"; jplus (prop_of (jx "dataView") "byteOffset") (jx "offset");
             XBin None BSub (prop_of (jx "dataView") "byteLength") (jx "offset")]]);
       to_end]
  | SyU64 => tgen_deser_u64 is_field
  | SyUnit => [jlet "payload" XNull]
  end.

(** ** Types *)

(** 1333-1375: [write_struct]. *)
Definition tgen_struct (name : ident) (fields : list sfield) (x : suffix) : tdef :=
  TdStruct (ttype_name name x)
    (match x with SAtlas => [(txt "$size", tt "number")] | _ => [] end ++
     map (fun f => (tfield_name f,
       let t := tgen_type (sf_type f) x in
       match sf_rule f, x with
       | Asymmetric, SIn | Optional, _ => TtUnion t (tt "undefined")
       | _, _ => t
       end)) fields).
(** 1378-1455: [write_choice]. *)
Definition tgen_case (name : ident) (x : suffix) (f : sfield) : list (str * ttype) :=
  match x with
  | SAtlas => [(txt "$size", tt "number")]
  | SIn => [(txt "$field", TtLit (tfield_name f))]
  | SOut => []
  end ++ [(tfield_name f, tgen_type (sf_type f) x)] ++
  match sf_rule f, x with
  | Asymmetric, SIn | Required, _ => []
  | _, _ => [(txt "$fallback", TtPath [ttype_name name x])]
  end.
Definition tgen_choice (name : ident) (fields : list sfield) (x : suffix) : tdef :=
  TdChoice (ttype_name name x)
    (map (tgen_case name x) fields ++
     match x, fields with SIn, [_] => [[(txt "$field", tt "never")]] | _, _ => [] end).

(** ** Functions *)

(** 1458-1476: [write_size_function]. *)
Definition tgen_size (name : ident) (fields : list sfield) : jfn :=
  JFn true (txt "size") false [(txt "message", TtPath [ttype_name name SOut])] (tt "number")
    [JReturn (match fields with [] => num 0 | _ => prop_of (jcall "atlas" [jx "message"]) "$size" end)].
(** 1479-1513: [write_serialize_function]. *)
Definition return_unreachable : jstmt := JReturn (jcall "unreachable" [jx "message"]).
Definition tgen_serialize (d : sdecl) : jfn :=
  JFn true (txt "serialize") false [(txt "message", TtPath [ttype_name (sd_name d) SOut])] (tt "ArrayBuffer")
    (match sd_kind d, sd_fields d with
     | SkChoice, [] => [return_unreachable]
     | _, _ =>
         [jconst "messageAtlas" (jcall "atlas" [jx "message"]);
          jconst "arrayBuffer" (XNew false ClsArrayBuffer [prop_of (jx "messageAtlas") "$size"]);
          jconst "dataView" (XNew false ClsDataView [jx "arrayBuffer"]);
          JExpr (jcall "serializeWithAtlasUnsafe" [jx "dataView"; num 0; jx "message"; jx "messageAtlas"]);
          JReturn (jx "arrayBuffer")]
     end).
(** 1516-1543: [write_deserialize_function]. *)
Definition tgen_deserialize (name : ident) : jfn :=
  JFn true (txt "deserialize") false [(txt "bytes", tt "Deserializable")] (TtUnion (TtPath [ttype_name name SIn]) (tt "Error"))
    [JTry
       [jif (XInstance (jx "bytes") ClsArrayBuffer) [JReturn (jcall "deserializeUnsafe" [XNew false ClsDataView [jx "bytes"]])];
        jif (XInstance (jx "bytes") ClsDataView) [JReturn (jcall "deserializeUnsafe" [jx "bytes"])];
        JReturn (jcall "deserializeUnsafe"
          [XNew false ClsDataView [prop_of (jx "bytes") "buffer"; prop_of (jx "bytes") "byteOffset"; prop_of (jx "bytes") "byteLength"]])]
       (txt "e") [JReturn (XAs (jx "e") (tt "Error"))]].

Definition atlas_fn (name : ident) (body : list jstmt) : jfn :=
  JFn true (txt "atlas") false [(txt "message", TtPath [ttype_name name SOut])] (TtPath [ttype_name name SAtlas]) body.
Definition ser_fn (name : ident) (body : list jstmt) : jfn :=
  JFn true (txt "serializeWithAtlasUnsafe") true
    [(txt "dataView", tt "DataView"); (txt "offset", tt "number"); (txt "message", TtPath [ttype_name name SOut]);
     (txt "atlas", TtPath [ttype_name name SAtlas])] (tt "number") body.
Definition deser_fn (name : ident) (body : list jstmt) : jfn :=
  JFn true (txt "deserializeUnsafe") false [(txt "dataView", tt "DataView")] (TtPath [ttype_name name SIn]) body.

Definition get_payload (f : sfield) : jstmt := jconst "payload" (XProp (jx "message") (tfield_name f)).
Definition payload_size (f : sfield) : jstmt := jconst "payloadSize" (tgen_lookup (sf_type f)).
Definition theader_size (f : sfield) : jexpr :=
  jplus (jcall "fieldHeaderSize" [XBig false (sf_index f); jx "payloadSize"; XBool (integer_encoded_sty (sf_type f))])
    (jx "payloadSize").
Definition tserialize_header (f : sfield) : jstmt :=
  jset "offset" (jcall "serializeFieldHeader"
    [jx "dataView"; jx "offset"; XBig false (sf_index f); jx "payloadSize"; XBool (integer_encoded_sty (sf_type f))]).
Definition is_optional (f : sfield) : bool := match sf_rule f with Optional => true | _ => false end.
Definition guarded (f : sfield) (c : jexpr) (b : list jstmt) : list jstmt := if is_optional f then [jif c b] else b.
Definition not_undefined (s : String.string) : jexpr := XBin None BNe (jx s) XUndefined.

(** *** Structs: 576-974 *)

(** 643-731: [atlas]. *)
Definition tstruct_atlas_field (f : sfield) : list jstmt :=
  [JBlank;
   JBlock
     ([jdecl "payloadAtlas"; get_payload f] ++
      guarded f (not_undefined "payload")
        (tgen_atlas (sf_type f) true ++
         [JAssign (tlocal_name f) (jx "payloadAtlas"); payload_size f; jadd "size" (theader_size f)]))].
Definition tstruct_locals (fields : list sfield) : jstmt := JLets (map tlocal_name fields).
Definition tstruct_props (fields : list sfield) : list (str * option jexpr) :=
  map (fun f => (tfield_name f, Some (XVar (tlocal_name f)))) fields.
Definition tstruct_atlas (name : ident) (fields : list sfield) : jfn :=
  atlas_fn name
    ([jlet "size" (num 0)] ++ match fields with [] => [] | _ => [JBlank; tstruct_locals fields] end ++
     flat_map tstruct_atlas_field fields ++
     [JBlank; JReturn (XObj true ((txt "$size", Some (jx "size")) :: tstruct_props fields))]).
(** 733-802: [serializeWithAtlasUnsafe]. *)
Definition tstruct_ser_field (f : sfield) : list jstmt :=
  [JBlock
     ([get_payload f; jconst "payloadAtlas" (XProp (jx "atlas") (tfield_name f))] ++
      guarded f (XBin None BBoth (not_undefined "payload") (not_undefined "payloadAtlas"))
        ([payload_size f; tserialize_header f] ++ tgen_ser (sf_type f) true));
   JBlank].
Definition tstruct_ser (name : ident) (fields : list sfield) : jfn :=
  ser_fn name (flat_map tstruct_ser_field fields ++ [JReturn (jx "offset")]).
(** 804-972: [deserializeUnsafe]. *)
Definition tstruct_deser_case (f : sfield) : jexpr * (bool * list jstmt) :=
  (XBig false (sf_index f),
   (true, sub_view (jx "payloadSize") ++ tgen_deser (sf_type f) true ++
          [jadd "offset" (jx "oldOffset"); JAssign (tlocal_name f) (jx "payload"); JBreak])).
Definition skip_unknown : bool * list jstmt := (false, [jadd "offset" (jx "payloadSize"); JBreak]).
Definition tmissing_check (fields : list sfield) : list jstmt :=
  if existsb required_field fields then
    [jif (XOrs (map (fun f => XBin None BEq (XVar (tlocal_name f)) XUndefined) (filter required_field fields)))
       [JThrow (XNew false ClsError [jx "missingFieldsErrorMessage"])];
     JBlank]
  else [].
Definition tstruct_loop (fields : list sfield) : list jstmt :=
  [JLets [txt "index"; txt "payloadSize"]; JBlank;
   JTry [JAssignTuple [txt "offset"; txt "index"; txt "payloadSize"] (jcall "deserializeFieldHeader" [jx "dataViewAlias"; jx "offset"])]
     (txt "e") break_on_range_error; JBlank;
   JSwitch (jx "index") (map tstruct_deser_case fields) skip_unknown].
Definition tstruct_deser (name : ident) (fields : list sfield) : jfn :=
  deser_fn name
    ([jconst "dataViewAlias" (jx "dataView"); JBlank; jlet "offset" (num 0); JBlank] ++
     match fields with [] => [] | _ => [tstruct_locals fields; JBlank] end ++
     [JWhile (XBool true) (tstruct_loop fields); JBlank] ++ tmissing_check fields ++
     [JReturn (XObj true (tstruct_props fields))]).

(** *** Choices: 975-1322 *)

(** 1038-1115: [atlas]. *)
Definition tchoice_atlas_case (f : sfield) : jstmt :=
  jif (XIn (tfield_name f) (jx "message"))
    ([jdecl "payloadAtlas"; get_payload f] ++ tgen_atlas (sf_type f) true ++ [payload_size f] ++
     if has_fallback_out f then
       [jconst "fallbackAtlas" (jcall "atlas" [prop_of (jx "message") "$fallback"]);
        JReturn (XObj false
          [(txt "$size", Some (jplus (theader_size f) (prop_of (jx "fallbackAtlas") "$size")));
           (tfield_name f, Some (jx "payloadAtlas")); (txt "$fallback", Some (jx "fallbackAtlas"))])]
     else [JReturn (XObj false [(txt "$size", Some (theader_size f)); (tfield_name f, Some (jx "payloadAtlas"))])]).
Definition tchoice_atlas (name : ident) (fields : list sfield) : jfn :=
  atlas_fn name (map tchoice_atlas_case fields ++ [return_unreachable]).
(** 1117-1197: [serializeWithAtlasUnsafe]. *)
Definition any_atlas : jexpr := XParen false (XAs (jx "atlas") (tt "any")).
Definition tchoice_ser_case (name : ident) (f : sfield) : jstmt :=
  jif (XIn (tfield_name f) (jx "message"))
    ([get_payload f; jconst "payloadAtlas" (XAs (XProp any_atlas (tfield_name f)) (tgen_type (sf_type f) SAtlas));
      payload_size f; tserialize_header f] ++ tgen_ser (sf_type f) true ++
     (if has_fallback_out f then
        [jset "offset" (jcall "serializeWithAtlasUnsafe"
           [jx "dataView"; jx "offset"; prop_of (jx "message") "$fallback";
            XAs (prop_of any_atlas "$fallback") (TtPath [ttype_name name SAtlas])])]
      else []) ++
     [JReturn (jx "offset")]).
Definition tchoice_ser (name : ident) (fields : list sfield) : jfn :=
  ser_fn name (map (tchoice_ser_case name) fields ++ [return_unreachable]).
(** 1199-1317: [deserializeUnsafe]. *)
Definition tchoice_deser_case (f : sfield) : jexpr * (bool * list jstmt) :=
  (XBig false (sf_index f),
   (true, sub_view (jx "payloadSize") ++ tgen_deser (sf_type f) true ++
          (if is_optional f then
             [jadd "offset" (jx "oldOffset");
              jconst "$fallback" (XCall true (CFn (txt "deserializeUnsafe"))
                [XNew true ClsDataView
                   [prop_of (jx "dataViewAlias") "buffer"; jplus (prop_of (jx "dataViewAlias") "byteOffset") (jx "offset");
                    XBin None BSub (prop_of (jx "dataViewAlias") "byteLength") (jx "offset")]])]
           else []) ++
          [JReturn (XObj true ([(txt "$field", Some (XStr (tfield_name f))); (tfield_name f, Some (jx "payload"))] ++
                               if is_optional f then [(txt "$fallback", None)] else []))])).
Definition tchoice_loop (fields : list sfield) : list jstmt :=
  [JLetTuple [txt "newOffset"; txt "index"; txt "payloadSize"] (jcall "deserializeFieldHeader" [jx "dataViewAlias"; jx "offset"]);
   jset "offset" (jx "newOffset"); JBlank;
   JSwitch (jx "index") (map tchoice_deser_case fields) skip_unknown].
Definition tchoice_deser (name : ident) (fields : list sfield) : jfn :=
  deser_fn name
    [jconst "dataViewAlias" (jx "dataView"); JBlank; jlet "offset" (num 0); JBlank; JWhile (XBool true) (tchoice_loop fields)].

(** 560-1330: [write_schema]. *)
Definition tgen_decl (d : sdecl) : tdecl :=
  let name := sd_name d in
  let fields := sd_fields d in
  let common := [tgen_size name fields; tgen_serialize d; tgen_deserialize name] in
  match sd_kind d with
  | SkStruct =>
      mkTDecl (ts_name u name Pascal None) (map (tgen_struct name fields) [SAtlas; SOut; SIn])
        (common ++ [tstruct_atlas name fields; tstruct_ser name fields; tstruct_deser name fields])
  | SkChoice =>
      mkTDecl (ts_name u name Pascal None) (map (tgen_choice name fields) [SAtlas; SOut; SIn])
        (common ++ [tchoice_atlas name fields; tchoice_ser name fields; tchoice_deser name fields])
  end.
End Schema.

(** 510-557: [write_module], [write_module_contents]. *)
Fixpoint tgen_module (u : unicode) (ns : namespace) (m : smodule) : tmod :=
  match m with
  | SModule children schema =>
      TMod (map (fun c => (ts_name u (fst c) Pascal None, tgen_module u (ns ++ [fst c]) (snd c))) children)
        (map (tgen_decl u ns schema) (ss_decls schema))
  end.
