(** The constant part of the generated TypeScript file (/repo/src/generate_typescript.rs 146-448), as syntax trees, and the
    text of the whole file. Definitions only. *)
From Verif Require Export TsGen RustText.

Definition big (n : N) : jexpr := XBig true n.
Definition bits (n : N) : jexpr := XNum Binary8 n.
Definition to_number (e : jexpr) : jexpr := XCall false (CGlobal GNumber) [e].
Definition to_bigint (e : jexpr) : jexpr := XCall false (CGlobal GBigInt) [e].
Definition jbin (op : jop) (a b : jexpr) : jexpr := XBin None op a b.
Definition par (e : jexpr) : jexpr := XParen false e.
Definition value_below (n : N) : jexpr := jbin BLt (jx "value") (big n).
Definition value_shl (n : N) : jexpr := par (jbin BShl (jx "value") (big n)).
Definition value_shr (n : N) : jexpr := par (jbin BShr (jx "value") (big n)).
Definition byte_of (e : jexpr) : jexpr := to_number (jbin BMod e (big 256)).
Definition offset_plus (n : N) : jexpr := if n =? 0 then jx "offset" else jplus (jx "offset") (num n).
Definition set_u8 (off : N) (e : jexpr) : jstmt := JExpr (XMethod false (jx "dataView") MtSetUint8 [offset_plus off; e]).
Definition set_u16 (off : N) (e : jexpr) : jstmt :=
  JExpr (XMethod false (jx "dataView") MtSetUint16 [offset_plus off; to_number (jbin BMod e (big 65536)); XBool true]).
Definition set_u32 (off : N) (e : jexpr) : jstmt :=
  JExpr (XMethod true (jx "dataView") MtSetUint32 [offset_plus off; to_number (jbin BMod e (big 4294967296)); XBool true]).
Definition first_byte (shift mark : N) : jstmt := set_u8 0 (jbin BOr (byte_of (value_shl shift)) (bits mark)).
Definition less (n : N) : jstmt := JOpAssign (txt "value") BSub (big n).
Definition ret_offset (n : N) : jstmt := JReturn (offset_plus n).
Definition dv : str * ttype := (txt "dataView", tt "DataView").
Definition off_param : str * ttype := (txt "offset", tt "number").

(** 173-175: [unreachable]. *)
Definition fn_unreachable : jfn := JFn true (txt "unreachable") false [(txt "x", tt "never")] (tt "never") [JReturn (jx "x")].
(** 177-180: [zigzagEncode]. *)
Definition fn_zigzag_encode : jfn :=
  JFn false (txt "zigzagEncode") false [(txt "value", tt "bigint")] (tt "bigint")
    [jconst "twice" (jbin BShl (jx "value") (big 1));
     JReturn (XCond (jbin BLt (jx "value") (big 0)) (jbin BSub (XNeg (big 1)) (jx "twice")) (jx "twice"))].
(** 182-185: [zigzagDecode]. *)
Definition fn_zigzag_decode : jfn :=
  JFn false (txt "zigzagDecode") false [(txt "value", tt "bigint")] (tt "bigint")
    [jconst "half" (jbin BShr (par (jplus (jx "value") (big 1))) (big 1));
     JReturn (XCond (jbin BEq (par (jbin BAnd (jx "value") (big 1))) (big 0)) (jx "half") (XNeg (jx "half")))].
(** 187-221: [varintSizeFromValue]. *)
Definition fn_varint_size : jfn :=
  JFn false (txt "varintSizeFromValue") false [(txt "value", tt "bigint")] (tt "number")
    (flat_map (fun bn => [jif (value_below (fst bn)) [JReturn (num (snd bn))]; JBlank])
       [(128, 1); (16512, 2); (2113664, 3); (270549120, 4); (34630287488, 5); (4432676798592, 6); (567382630219904, 7);
        (72624976668147840, 8)] ++
     [JReturn (num 9)]).
(** 223-232: [varintSizeFromFirstByte]. *)
Definition fn_size_from_first_byte : jfn :=
  JFn false (txt "varintSizeFromFirstByte") false [(txt "firstByte", tt "number")] (tt "number")
    [jlet "trailingZeros" (num 0); JBlank;
     JWhile (jbin BBoth (jbin BLt (jx "trailingZeros") (num 8)) (jbin BNe (par (jbin BAnd (jx "firstByte") (num 1))) (num 1)))
       [jadd "trailingZeros" (num 1); JOpAssign (txt "firstByte") BShr (num 1)];
     JBlank; JReturn (jplus (jx "trailingZeros") (num 1))].
(** 234-318: [serializeVarint]. *)
Definition fn_serialize_varint : jfn :=
  JFn false (txt "serializeVarint") true [dv; off_param; (txt "value", tt "bigint")] (tt "number")
    [jif (value_below 128)
       [set_u8 0 (jbin BOr (to_number (jbin BShl (jx "value") (big 1))) (bits 1)); ret_offset 1]; JBlank;
     jif (value_below 16512)
       [less 128; first_byte 2 2; set_u8 1 (to_number (jbin BShr (jx "value") (big 6))); ret_offset 2]; JBlank;
     jif (value_below 2113664)
       [less 16512; first_byte 3 4; set_u16 1 (value_shr 5); ret_offset 3]; JBlank;
     jif (value_below 270549120)
       [less 2113664; first_byte 4 8; set_u8 1 (byte_of (value_shr 4)); set_u16 2 (value_shr 12); ret_offset 4]; JBlank;
     jif (value_below 34630287488)
       [less 270549120; first_byte 5 16; set_u32 1 (value_shr 3); ret_offset 5]; JBlank;
     jif (value_below 4432676798592)
       [less 34630287488; first_byte 6 32; set_u8 1 (byte_of (value_shr 2)); set_u32 2 (value_shr 10); ret_offset 6]; JBlank;
     jif (value_below 567382630219904)
       [less 4432676798592; first_byte 7 64; set_u16 1 (value_shr 1); set_u32 3 (value_shr 17); ret_offset 7]; JBlank;
     jif (value_below 72624976668147840)
       [less 567382630219904; set_u8 0 (bits 128); set_u8 1 (byte_of (jx "value")); set_u16 2 (value_shr 8);
        set_u32 4 (value_shr 24); ret_offset 8]; JBlank;
     less 72624976668147840; set_u8 0 (bits 0);
     JExpr (XMethod false (jx "dataView") MtSetBigUint64 [offset_plus 1; jx "value"; XBool true]);
     ret_offset 9].
(** 320-378: [deserializeVarint]. *)
Definition first_byte_shr (n : N) : jexpr := to_bigint (jbin BShr (jx "firstByte") (num n)).
Definition rest_shl (n : N) : jexpr := par (jbin BShl (jx "remainingBytesValue") (big n)).
Definition varint_case (k : N) (e : jexpr) : jexpr * (bool * list jstmt) :=
  (num k, (false, [JReturn (XArr true [offset_plus (k + 1); e])])).
Definition fn_deserialize_varint : jfn :=
  JFn false (txt "deserializeVarint") true [dv; off_param] (TtTuple [tt "number"; tt "bigint"])
    [jconst "firstByte" (XMethod false (jx "dataView") MtGetUint8 [jx "offset"]);
     jconst "sizeMinusOne" (jbin BSub (jcall "varintSizeFromFirstByte" [jx "firstByte"]) (num 1)); JBlank;
     jconst "offsetPlusOne" (offset_plus 1);
     JExpr (XMethod false (jx "dataView64") MtSetBigUint64 [num 0; big 0; XBool true]);
     JFor (txt "i") (jx "sizeMinusOne")
       [JExpr (XMethod false (jx "dataView64") MtSetUint8
          [jx "i"; XMethod false (jx "dataView") MtGetUint8 [jplus (jx "offsetPlusOne") (jx "i")]])];
     jconst "remainingBytesValue" (XMethod false (jx "dataView64") MtGetBigUint64 [num 0; XBool true]); JBlank;
     JSwitch (jx "sizeMinusOne")
       [(num 0, (false, [JReturn (XArr false [offset_plus 1; first_byte_shr 1])]));
        varint_case 1 (jplus (jplus (big 128) (first_byte_shr 2)) (rest_shl 6));
        varint_case 2 (jplus (jplus (big 16512) (first_byte_shr 3)) (rest_shl 5));
        varint_case 3 (jplus (jplus (big 2113664) (first_byte_shr 4)) (rest_shl 4));
        varint_case 4 (jplus (jplus (big 270549120) (first_byte_shr 5)) (rest_shl 3));
        varint_case 5 (jplus (jplus (big 34630287488) (first_byte_shr 6)) (rest_shl 2));
        varint_case 6 (XBin (Some 1%nat) BAdd (XBin (Some 1%nat) BAdd (big 4432676798592) (first_byte_shr 7)) (rest_shl 1));
        (num 7, (false, [JReturn (XArr false [offset_plus 8; jplus (big 567382630219904) (jx "remainingBytesValue")])]))]
       (false, [JReturn (XArr true
          [offset_plus 9;
           XBin (Some 1%nat) BMod (par (jplus (big 72624976668147840) (jx "remainingBytesValue"))) (big 18446744073709551616)])])].
(** 380-400: [fieldHeaderSize]. *)
Definition tag_of (k : N) : jexpr :=
  if k =? 0 then jbin BShl (jx "index") (big 2) else jbin BOr (par (jbin BShl (jx "index") (big 2))) (big k).
Definition fn_header_size : jfn :=
  let size e := jcall "varintSizeFromValue" [e] in
  JFn false (txt "fieldHeaderSize") true
    [(txt "index", tt "bigint"); (txt "payloadSize", tt "number"); (txt "integerEncoded", tt "boolean")] (tt "number")
    [JSwitch (jx "payloadSize")
       [(num 0, (false, [JReturn (size (tag_of 0))])); (num 8, (false, [JReturn (size (tag_of 1))]))]
       (false,
        [jif (jx "integerEncoded") [JReturn (size (tag_of 2))]; JBlank;
         JReturn (XParen true (XBin (Some 0%nat) BAdd (size (tag_of 3)) (size (to_bigint (jx "payloadSize")))))])].
(** 402-423: [serializeFieldHeader]. *)
Definition fn_serialize_header : jfn :=
  let ser e := jcall "serializeVarint" [jx "dataView"; jx "offset"; e] in
  JFn false (txt "serializeFieldHeader") true
    [dv; off_param; (txt "index", tt "bigint"); (txt "payloadSize", tt "number"); (txt "integerEncoded", tt "boolean")] (tt "number")
    [JSwitch (jx "payloadSize")
       [(num 0, (false, [JReturn (ser (tag_of 0))])); (num 8, (false, [JReturn (ser (tag_of 1))]))]
       (false,
        [jif (jx "integerEncoded") [JReturn (ser (tag_of 2))]; JBlank;
         jset "offset" (ser (tag_of 3)); JBlank;
         JReturn (ser (to_bigint (jx "payloadSize")))])].
(** 425-445: [deserializeFieldHeader]. *)
Definition fn_deserialize_header : jfn :=
  let ret e := [JReturn (XArr false [jx "newOffset"; jx "index"; e])] in
  JFn false (txt "deserializeFieldHeader") true [dv; off_param] (TtTuple [tt "number"; tt "bigint"; tt "number"])
    [JLetTuple [txt "newOffset"; txt "tag"] (jcall "deserializeVarint" [jx "dataView"; jx "offset"]); JBlank;
     jconst "index" (jbin BShr (jx "tag") (big 2)); JBlank;
     JSwitch (jbin BAnd (jx "tag") (big 3))
       [(big 0, (false, ret (num 0)));
        (big 1, (false, ret (num 8)));
        (big 2, (false, ret (jcall "varintSizeFromFirstByte" [XMethod false (jx "dataView") MtGetUint8 [jx "newOffset"]])))]
       (true,
        [JLetTuple [txt "newNewOffset"; txt "sizeValue"] (jcall "deserializeVarint" [jx "dataView"; jx "newOffset"]);
         JReturn (XArr false [jx "newNewOffset"; jx "index"; to_number (jx "sizeValue")])])].
Definition prelude_fns : list jfn :=
  [fn_unreachable; fn_zigzag_encode; fn_zigzag_decode; fn_varint_size; fn_size_from_first_byte; fn_serialize_varint;
   fn_deserialize_varint; fn_header_size; fn_serialize_header; fn_deserialize_header].
(** 447-450: the constants. *)
Definition prelude_consts : list jstmt :=
  [jconst "missingFieldsErrorMessage" (XStr (txt "Struct missing one or more required field(s)."));
   jconst "dataView64" (XNew false ClsDataView [XNew false ClsArrayBuffer [num 8]]);
   jconst "textEncoder" (XNew false ClsTextEncoder []); jconst "textDecoder" (XNew false ClsTextDecoder [])].
(** 152-171: the type of what can be deserialized. *)
Definition deserializable : str :=
  txt "export type Deserializable =" ++
  concat (map (fun t => nl ++ txt "  | " ++ t)
    (map txt ["ArrayBuffer"; "DataView"; "Int8Array"; "Uint8Array"; "Uint8ClampedArray"; "Int16Array"; "Uint16Array"; "Int32Array";
              "Uint32Array"; "Float32Array"; "Float64Array"; "BigInt64Array"; "BigUint64Array"]%string)) ++ txt ";" ++ nl.
(** 146-451: the text, for a version of the program. *)
Definition ts_prelude_text (version : str) : str :=
  txt "// This file was automatically generated by Typical " ++ version ++ txt "." ++ nl ++
  txt "// Visit https://github.com/stepchowfun/typical for more information." ++ nl ++ nl ++
  txt "/* eslint-disable */" ++ nl ++ nl ++
  deserializable ++ nl ++ join_with nl (map (jfn_str 0) prelude_fns) ++ nl ++ body_str 0 prelude_consts.

(** 122-469: [generate]; [None] is a panic ([unwrap] 570, [imports[import]] 1659). *)
Definition ts_program (u : unicode) (schemas : list (namespace * sschema)) : tmod := tgen_module u [] (module_tree schemas).
Definition ts_code (u : unicode) (version : str) (schemas : list (namespace * sschema)) : option str :=
  let tree := module_tree schemas in
  if module_panics [] tree then None
  else
    match module_children tree, ss_decls (module_schema tree) with
    | [], [] => Some []
    | _, _ => Some (ts_prelude_text version ++ nl ++ tmod_str 0 (ts_program u schemas))
    end.
