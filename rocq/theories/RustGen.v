(** Model of the code generator of /repo/src/generate_rust.rs: the syntax trees of what it writes. Definitions only.
    The functions have the structure of those of the generator; [rust_code] at the end is the text. *)
From Verif Require Export RustSyntax ModuleTree.

(** Fixed names. *)
Definition vr (s : String.string) : expr := EVar (txt s).
Definition lets (s : String.string) (e : expr) : stmt := SLet false (PVar false (txt s)) None e.
Definition letm (s : String.string) (e : expr) : stmt := SLet true (PVar false (txt s)) None e.
Definition usize_lit (n : N) : expr := EInt n (txt "usize").
Definition u64_lit (n : N) : expr := EInt n (txt "u64").
Definition as_u64 (e : expr) : expr := ECast e (txt "u64").
Definition as_usize (e : expr) : expr := ECast e (txt "usize").
Definition pv (s : String.string) : pat := PVar false (txt s).
Definition pref (s : String.string) : pat := PVar true (txt s).
Definition inline_block (ss : list stmt) (e : expr) : expr := EBlock (Blk true ss (Some e)).
Definition ty_usize : rtype := TyPath [txt "usize"].
Definition io_result (t : rtype) : rtype := TyApp (txt "::std::io::Result") t.

(** Whether elements of this type are preceded by their size: the first group of patterns of the inner [match]es of
    [write_type], [write_atlas_calculation], [write_atlas_lookup], [write_serialization_invocation] and
    [write_deserialization_invocation]. *)
Definition sized_sty (t : sty) : bool :=
  match t with SyArray _ | SyBytes | SyCustom _ _ | SyString => true | _ => false end.
Definition is_unit_sty (t : sty) : bool := match t with SyUnit => true | _ => false end.
(** generate_rust.rs 2389-2399: [integer_encoded]. *)
Definition integer_encoded_sty (t : sty) : bool := match t with SyBool | SyS64 | SyU64 => true | _ => false end.

(** generate_rust.rs 1919-1947: [write_atlas_lookup]. *)
Definition gen_atlas_lookup (t : sty) : expr :=
  match t with
  | SyArray inner => if sized_sty inner then EField (vr "payload_atlas") (txt "0") else EDeref (vr "payload_atlas")
  | SyCustom _ _ => EMethod (vr "payload_atlas") MSize []
  | _ => EDeref (vr "payload_atlas")
  end.

(** generate_rust.rs 1886-1905: the case of [U64] in [write_atlas_calculation], with the parentheses of 1822 and 1911. *)
Definition gen_atlas_u64 (supers : nat) (is_field : bool) : expr :=
  EParen
    (if is_field then
       EMatch true (EDeref (vr "payload"))
         [Arm (PInt 0 (txt "u64")) (inline_block [] (usize_lit 0));
          Arm (PRange 1 567382630219903 (txt "u64")) (inline_block [] (ECall (CTop supers FnVarintSize) [EDeref (vr "payload")]));
          Arm (PRange 567382630219904 18446744073709551615 (txt "u64")) (inline_block [] (usize_lit 8))]
     else ECall (CTop supers FnVarintSize) [EDeref (vr "payload")]).
(** generate_rust.rs 1815-1912: [write_atlas_calculation]. *)
Fixpoint gen_atlas_calc (supers : nat) (t : sty) (is_field : bool) : expr :=
  match t with
  | SyU64 => gen_atlas_u64 supers is_field
  | _ => EParen
      (match t with
       | SyArray inner =>
           match inner with
           | SyArray _ | SyBytes | SyCustom _ _ | SyString =>
               inline_block
                 [lets "atlases" (EMethod (EMethod (EMethod (vr "payload") MIter []) MMap
                                             [EClosure [txt "payload"] (gen_atlas_calc supers inner false)]) MCollect [])]
                 (EPair
                    (EMethod (EMethod (vr "atlases") MIter []) MFold
                       [usize_lit 0;
                        EClosure [txt "x"; txt "payload_atlas"]
                          (inline_block [lets "atlas_size" (gen_atlas_lookup inner)]
                             (EBin OpAdd (EBin OpAdd (vr "x") (ECall (CTop supers FnVarintSize) [as_u64 (vr "atlas_size")]))
                                (vr "atlas_size")))])
                    (vr "atlases"))
           | SyBool | SyS64 | SyU64 =>
               EMethod (EMethod (vr "payload") MIter []) MFold
                 [usize_lit 0; EClosure [txt "x"; txt "payload"] (EBin OpAdd (vr "x") (gen_atlas_calc supers inner false))]
           | SyF64 => EBin OpMul (usize_lit 8) (EMethod (vr "payload") MLen [])
           | SyUnit =>
               inline_block [lets "payload" (ERef false (EParen (as_u64 (EMethod (vr "payload") MLen []))))]
                 (gen_atlas_u64 supers is_field)
           end
       | SyBool => if is_field then ECall (CStd FnUsizeFrom) [EDeref (vr "payload")] else usize_lit 1
       | SyBytes | SyString => EMethod (vr "payload") MLen []
       | SyCustom _ _ => EMethod (vr "payload") MAtlas []
       | SyF64 =>
           if is_field then
             EIf (EBin OpEq (EMethod (vr "payload") MToBits []) (u64_lit 0))
               (Blk true [] (Some (usize_lit 0))) (Blk true [] (Some (usize_lit 8)))
           else usize_lit 8
       | SyS64 =>
           inline_block
             [lets "zigzag" (ECall (CTop supers FnZigzagEncode) [EDeref (vr "payload")]); lets "payload" (ERef false (vr "zigzag"))]
             (gen_atlas_u64 supers is_field)
       | SyU64 | SyUnit => usize_lit 0
       end)
  end.

(** generate_rust.rs 2082-2112: [write_u64_serialization_invocation]. *)
Definition gen_write_all (e : expr) : expr := ETry (EMethod (vr "writer") MWriteAll [e]).
Definition gen_u64_ser (supers : nat) (is_field : bool) : stmt :=
  if is_field then
    SExpr (EMatch false (vr "varint")
      [Arm (PInt 0 (txt "u64")) (EBlock (Blk false [] None));
       Arm (PRange 1 567382630219903 (txt "u64")) (ETry (ECall (CTop supers FnSerializeVarint) [vr "varint"; vr "writer"]));
       Arm (PRange 567382630219904 18446744073709551615 (txt "u64")) (gen_write_all (ERef false (EMethod (vr "varint") MToLeBytes [])))])
  else SSemi (ETry (ECall (CTop supers FnSerializeVarint) [vr "varint"; vr "writer"])).
(** generate_rust.rs 1957-2075: [write_serialization_invocation]. *)
Definition ser_block (supers : nat) (is_field : bool) (varint : expr) : list stmt :=
  [SExpr (EBlock (Blk false [lets "varint" varint; gen_u64_ser supers is_field] None))].
Fixpoint gen_ser (supers : nat) (t : sty) (is_field : bool) : list stmt :=
  match t with
  | SyArray inner =>
      match inner with
      | SyArray _ | SyBytes | SyCustom _ _ | SyString =>
          [SFor (PPair (pv "payload") (pv "payload_atlas"))
             (EMethod (EMethod (vr "payload") MIter []) MZip [EMethod (EField (vr "payload_atlas") (txt "1")) MIter []])
             (Blk false
                (SSemi (ETry (ECall (CTop supers FnSerializeVarint) [as_u64 (gen_atlas_lookup inner); vr "writer"])) ::
                 gen_ser supers inner false) None)]
      | SyBool | SyS64 | SyU64 | SyF64 => [SFor (pv "payload") (vr "payload") (Blk false (gen_ser supers inner false) None)]
      | SyUnit => ser_block supers is_field (as_u64 (EMethod (vr "payload") MLen []))
      end
  | SyBool => ser_block supers is_field (ECall (CStd FnU64From) [EDeref (vr "payload")])
  | SyBytes => [SSemi (gen_write_all (vr "payload"))]
  | SyCustom _ _ => [SSemi (ETry (EMethod (vr "payload") MSerializeWithAtlas [vr "writer"; vr "payload_atlas"]))]
  | SyF64 =>
      let s := SSemi (gen_write_all (ERef false (EMethod (vr "payload") MToLeBytes []))) in
      if is_field then [SIf (EBin OpNe (EMethod (vr "payload") MToBits []) (u64_lit 0)) (Blk false [s] None)] else [s]
  | SyS64 => ser_block supers is_field (ECall (CTop supers FnZigzagEncode) [EDeref (vr "payload")])
  | SyString => [SSemi (gen_write_all (EMethod (vr "payload") MAsBytes []))]
  | SyU64 => ser_block supers is_field (EDeref (vr "payload"))
  | SyUnit => []
  end.

(** The arms that end a loop at the end of the input: generate_rust.rs 2164-2181, 2228-2244; 839-857 has a blank line. *)
Definition eof_arms (ok : String.string) (e : expr) (blank : bool) : list arm :=
  [Arm (PCon [txt "Ok"] [pv ok]) e;
   Arm (PCon [txt "Err"] [pv "err"])
     (EBlock (Blk false
        ([SIfLet (PCon (map txt ["std"; "io"; "ErrorKind"; "UnexpectedEof"]%string) []) (EMethod (vr "err") MKind [])
            (Blk false [SSemi EBreak] None)] ++
         (if blank then [SBlank] else []) ++ [SSemi (EReturn (ECall (CStd FnErr) [vr "err"]))]) None))].
Definition mut_sub_reader : expr := ERef true (vr "sub_reader").
Definition mut_reader : expr := ERef true (EDeref (vr "reader")).

(** generate_rust.rs 2354-2381: the case of [U64] in [write_deserialization_invocation]. *)
Definition gen_deser_u64 (supers : nat) (is_field : bool) : list stmt :=
  if is_field then
    [lets "payload"
       (EMatch false (vr "payload_size")
          [Arm (PInt 0 (txt "usize")) (u64_lit 0);
           Arm (PInt 8 (txt "usize"))
             (EBlock (Blk false
                [letm "buffer" (EZeros 8);
                 SSemi (ETry (ECall (CStd FnReadExact) [mut_sub_reader; ERef true (EWhole (vr "buffer"))]))]
                (Some (ECall (CStd FnU64FromLeBytes) [vr "buffer"]))));
           Arm PWild (ETry (ECall (CTop supers FnDeserializeVarint) [mut_sub_reader]))])]
  else [lets "payload" (ETry (ECall (CTop supers FnDeserializeVarint) [mut_sub_reader]))].

Section Schema.
Context (u : unicode) (ns : namespace) (s : sschema).

(** Names; [write_identifier] is [rust_name] in Identifier.v. *)
Definition type_name (d : ident) (x : suffix) : str := rust_name u d Pascal (Some x).
Definition field_name (f : sfield) : str := rust_name u (sf_name f) Snake None.
Definition variant_name (f : sfield) : str := rust_name u (sf_name f) Pascal None.
Definition local_name (f : sfield) : str := rust_local u (sf_name f).
(** generate_rust.rs 1656-1674. That [imports[import]] may panic is dealt with in [generation_panics] below. *)
Definition type_path (import : option ident) (name : ident) (x : suffix) : list str :=
  match rust_path u s ns import name x with Some p => p | None => [] end.

(** generate_rust.rs 1608-1719: [write_type]. *)
Fixpoint gen_type (t : sty) (x : suffix) : rtype :=
  match t with
  | SyArray inner =>
      match x with
      | SAtlas => if sized_sty inner then TyPair ty_usize (TyApp (txt "Vec") (gen_type inner x)) else ty_usize
      | _ => TyApp (txt "Vec") (gen_type inner x)
      end
  | SyCustom import name => TyPath (type_path import name x)
  | _ =>
      match x with
      | SAtlas => ty_usize
      | _ => match t with
             | SyBool => TyPath [txt "bool"]
             | SyBytes => TyApp (txt "Vec") (TyPath [txt "u8"])
             | SyF64 => TyPath [txt "f64"]
             | SyS64 => TyPath [txt "i64"]
             | SyString => TyPath [txt "String"]
             | SyU64 => TyPath [txt "u64"]
             | _ => TyUnit
             end
      end
  end.

(** generate_rust.rs 1781-1809: [write_into_invocation], applied to [e]. *)
Fixpoint innermost_custom (t : sty) : bool :=
  match t with SyArray inner => innermost_custom inner | SyCustom _ _ => true | _ => false end.
Fixpoint into_layers (t : sty) (e : expr) : expr :=
  match t with
  | SyArray inner => EMethod (EMethod (EMethod e MIntoIter []) MMap [EClosure [txt "x"] (into_layers inner (vr "x"))]) MCollect []
  | _ => EMethod e MInto []
  end.
Definition gen_into (t : sty) (e : expr) : expr := if innermost_custom t then into_layers t e else EMethod e MInto [].

(** generate_rust.rs 2124-2386: [write_deserialization_invocation]. *)
Definition eight_bytes : list stmt :=
  [letm "buffer" (EZeros 8); SSemi (ETry (ECall (CStd FnReadExact) [mut_sub_reader; ERef true (vr "buffer")]))].
Fixpoint gen_deser (supers : nat) (t : sty) (is_field : bool) : list stmt :=
  match t with
  | SyArray inner =>
      match inner with
      | SyArray _ | SyBytes | SyCustom _ _ | SyString =>
          [letm "payload" (ECall (CStd FnVecNew) []);
           SLoop (Blk false
             [lets "payload_size" (EMatch false (ECall (CTop supers FnDeserializeVarint) [mut_sub_reader])
                                     (eof_arms "payload_size" (as_usize (vr "payload_size")) false));
              letm "sub_reader" (ECall (CStd FnTake) [mut_sub_reader; as_u64 (vr "payload_size")]);
              SSemi (EMethod (vr "payload") MPush [EBlock (Blk false (gen_deser supers inner false) (Some (vr "payload")))])] None)]
      | SyBool | SyF64 | SyS64 | SyU64 =>
          [SFn (FnDef false (txt "deserialize_element") (Some (txt "::std::io::BufRead")) false
                  [Par true (txt "sub_reader") (TyRef true (TyPath [txt "T"]))] (io_result (gen_type inner SIn))
                  (Blk false (gen_deser supers inner false) (Some (ECall (CStd FnOk) [vr "payload"]))));
           letm "payload" (ECall (CStd FnVecNew) [])] ++
          match inner with SyF64 => [SSemi (EMethod (vr "payload") MReserveExact [vr "payload_size"])] | _ => [] end ++
          [SLoop (Blk false
             [SSemi (EMethod (vr "payload") MPush
                [EMatch false (ECall (CLocal (txt "deserialize_element")) [mut_sub_reader]) (eof_arms "element" (vr "element") false)])] None)]
      | SyUnit => gen_deser_u64 supers is_field ++ [lets "payload" (EVecUnits (as_usize (vr "payload")))]
      end
  | SyBool => gen_deser_u64 supers is_field ++ [lets "payload" (EBin OpNe (vr "payload") (u64_lit 0))]
  | SyBytes =>
      [letm "payload" EVecEmpty; SSemi (EMethod (vr "payload") MReserveExact [vr "payload_size"]);
       SSemi (ETry (ECall (CStd FnReadToEnd) [mut_sub_reader; ERef true (vr "payload")]))]
  | SyCustom import name => [lets "payload" (ETry (ECall (CDeserialize (type_path import name SIn)) [mut_sub_reader]))]
  | SyF64 =>
      if is_field then
        [lets "payload" (EIf (EBin OpEq (vr "payload_size") (usize_lit 0)) (Blk false [] (Some EZeroF64))
                           (Blk false eight_bytes (Some (ECall (CStd FnF64FromLeBytes) [vr "buffer"]))))]
      else eight_bytes ++ [lets "payload" (ECall (CStd FnF64FromLeBytes) [vr "buffer"])]
  | SyS64 => gen_deser_u64 supers is_field ++ [lets "payload" (ECall (CTop supers FnZigzagDecode) [vr "payload"])]
  | SyString =>
      [letm "payload" (ECall (CStd FnStringNew) []); SSemi (EMethod (vr "payload") MReserveExact [vr "payload_size"]);
       SSemi (ETry (ECall (CStd FnReadToString) [mut_sub_reader; ERef true (vr "payload")]))]
  | SyU64 => gen_deser_u64 supers is_field
  | SyUnit => [lets "payload" EUnit]
  end.

(** generate_rust.rs 1420-1481: [write_struct]. *)
Definition gen_struct (name : ident) (fields : list sfield) (x : suffix) : item :=
  IStruct (type_name name x)
    (match x with SAtlas => [(txt "_size", ty_usize)] | _ => [] end ++
     map (fun f => (field_name f,
       let t := gen_type (sf_type f) x in
       match sf_rule f, x with
       | Asymmetric, SIn | Optional, _ => TyApp (txt "Option") t
       | _, _ => t
       end)) fields).
(** generate_rust.rs 1484-1562: [write_choice]. *)
Definition gen_choice (name : ident) (fields : list sfield) (x : suffix) : item :=
  IEnum (type_name name x)
    (map (fun f => (variant_name f,
       match x with SAtlas => [ty_usize] | _ => [] end ++
       match x with SAtlas => [gen_type (sf_type f) x] | _ => if is_unit_sty (sf_type f) then [] else [gen_type (sf_type f) x] end ++
       match sf_rule f, x with
       | Asymmetric, SIn | Required, _ => []
       | _, _ => [TyApp (txt "Box") (TyPath [type_name name x])]
       end)) fields).

(** generate_rust.rs 1564-1606: [write_size_function], [write_serialize_function], [write_deserialize_function]. *)
Definition gen_size_fn : fndef :=
  FnDef false (txt "size") None false [ParSelf] ty_usize (Blk false [] (Some (EMethod (EMethod (vr "self") MAtlas []) MSize []))).
Definition gen_serialize_fn : fndef :=
  FnDef false (txt "serialize") (Some (txt "::std::io::Write")) false [ParSelf; Par true (txt "writer") (TyPath [txt "T"])]
    (io_result TyUnit)
    (Blk false [lets "atlas" (EMethod (vr "self") MAtlas [])]
       (Some (EMethod (vr "self") MSerializeWithAtlas [ERef true (vr "writer"); ERef false (vr "atlas")]))).
Definition gen_deserialize_fn : fndef :=
  FnDef false (txt "deserialize") (Some (txt "::std::io::BufRead")) false [Par true (txt "reader") (TyPath [txt "T"])]
    (io_result (TyPath [txt "Self"]))
    (Blk false [] (Some (ECall (CDeserialize [txt "Self"]) [ERef true (vr "reader")]))).

(** Within [write_schema], generate_rust.rs 500-1417, with [indentation] levels of indentation. *)
Context (indentation : nat).
Definition header_size (f : sfield) : expr :=
  ECall (CTop indentation FnFieldHeaderSize) [u64_lit (sf_index f); vr "payload_size"; EBool (integer_encoded_sty (sf_type f))].
Definition serialize_header (f : sfield) : stmt :=
  SSemi (ETry (ECall (CTop indentation FnSerializeFieldHeader)
    [vr "writer"; u64_lit (sf_index f); gen_atlas_lookup (sf_type f); EBool (integer_encoded_sty (sf_type f))])).
Definition self_field (f : sfield) : expr := EField (vr "self") (field_name f).
Definition serialize_with_atlas_fn (name : ident) (body : block) : fndef :=
  FnDef true (txt "serialize_with_atlas") (Some (txt "::std::io::Write")) true
    [ParSelf; Par false (txt "writer") (TyRef true (TyPath [txt "T"])); Par false (txt "atlas") (TyRef false (TyPath [type_name name SAtlas]))]
    (io_result TyUnit) body.
Definition deserialize_fn (body : block) : fndef :=
  FnDef true (txt "deserialize_from_reader_ref") (Some (txt "::std::io::BufRead")) true
    [Par false (txt "reader") (TyRef true (TyPath [txt "T"]))] (io_result (TyPath [txt "Self"])) body.
Definition from_fn (name : ident) (body : expr) : fndef :=
  FnDef false (txt "from") None false [Par false (txt "message") (TyPath [type_name name SOut])] (TyPath [txt "Self"])
    (Blk false [] (Some body)).
Definition skip_arm : arm :=
  Arm PWild (EBlock (Blk false [SSemi (ETry (ECall (CTop indentation FnSkip) [mut_sub_reader; vr "payload_size"]))] None)).
Definition take_sub_reader : stmt := letm "sub_reader" (ECall (CStd FnTake) [mut_reader; as_u64 (vr "payload_size")]).
Definition index_and_size : pat := PPair (pv "index") (pv "payload_size").

(** *** Structs *)

(** 584-640: the body of [from]. *)
Definition struct_from (name : ident) (fields : list sfield) : fndef :=
  from_fn name
    (EStruct (type_name name SIn)
       (map (fun f => (field_name f,
          let e := EField (vr "message") (field_name f) in
          match sf_rule f with
          | Asymmetric => ECall (CStd FnSome) [gen_into (sf_type f) e]
          | Optional => EMethod e MMap [EClosure [txt "payload"] (gen_into (sf_type f) (vr "payload"))]
          | Required => gen_into (sf_type f) e
          end)) fields)).
(** 642-735: [atlas]. *)
Definition struct_atlas_let (f : sfield) : stmt :=
  SLet false (PVar false (local_name f)) None
    (match sf_rule f with
     | Optional => EMethod (EMethod (self_field f) MAsRef []) MMap
                     [EClosure [txt "payload"] (gen_atlas_calc indentation (sf_type f) true)]
     | _ => inline_block [lets "payload" (ERef false (self_field f))] (gen_atlas_calc indentation (sf_type f) true)
     end).
Definition struct_size_term (f : sfield) : expr :=
  let payload_size := lets "payload_size" (gen_atlas_lookup (sf_type f)) in
  let sum := EBin OpAdd (header_size f) (vr "payload_size") in
  match sf_rule f with
  | Optional => EMethod (EMethod (EVar (local_name f)) MAsRef []) MMapOr
                  [usize_lit 0; EClosure [txt "payload_atlas"] (inline_block [payload_size] sum)]
  | _ => inline_block [lets "payload_atlas" (ERef false (EVar (local_name f))); payload_size] sum
  end.
Definition struct_atlas (name : ident) (fields : list sfield) : fndef :=
  FnDef true (txt "atlas") None false [ParSelf] (TyPath [type_name name SAtlas])
    (Blk false
       (match fields with [] => [] | _ => map struct_atlas_let fields ++ [SBlank] end)
       (Some (EStruct (type_name name SAtlas)
          ((txt "_size", ESum (map struct_size_term fields)) :: map (fun f => (field_name f, EVar (local_name f))) fields)))).
(** 736-800: [serialize_with_atlas]. *)
Definition struct_ser_field (f : sfield) : list stmt :=
  let body := serialize_header f :: gen_ser indentation (sf_type f) true in
  match sf_rule f with
  | Optional =>
      [SIfLet (PPair (PCon [txt "Some"] [pv "payload"]) (PCon [txt "Some"] [pv "payload_atlas"]))
         (EPair (ERef false (self_field f)) (ERef false (EField (vr "atlas") (field_name f)))) (Blk false body None); SBlank]
  | _ =>
      [SExpr (EBlock (Blk false
         (lets "payload" (ERef false (self_field f)) ::
          lets "payload_atlas" (ERef false (EField (vr "atlas") (field_name f))) :: body) None)); SBlank]
  end.
Definition struct_ser (name : ident) (fields : list sfield) : fndef :=
  serialize_with_atlas_fn name (Blk false (flat_map struct_ser_field fields) (Some (ECall (CStd FnOk) [EUnit]))).
(** 802-966: [deserialize_from_reader_ref]. *)
Definition struct_deser_let (f : sfield) : stmt :=
  SLet true (PVar false (local_name f)) (Some (TyApp (txt "Option") (gen_type (sf_type f) SIn))) ENone.
Definition struct_deser_arm (f : sfield) : arm :=
  Arm (PInt (sf_index f) [])
    (EBlock (Blk false
       (gen_deser indentation (sf_type f) true ++
        [SSemi (EMethod (EVar (local_name f)) MGetOrInsert [vr "payload"])]) None)).
Definition required_field (f : sfield) : bool := match sf_rule f with Required => true | _ => false end.
Definition missing_check (fields : list sfield) : list stmt :=
  if existsb required_field fields then
    [SIf (EOrs (map (fun f => EMethod (EVar (local_name f)) MIsNone []) (filter required_field fields)))
       (Blk false [SSemi (EReturn (ECall (CStd FnErr) [ECallLines (CStd FnErrorNew) [EInvalidData; EMissingFields indentation]]))] None);
     SBlank]
  else [].
Definition struct_loop_block (fields : list sfield) : block :=
  Blk false
    [SLet false index_and_size None
       (EMatch false (ECall (CTop indentation FnDeserializeFieldHeader) [mut_reader]) (eof_arms "header" (vr "header") true)); SBlank;
     take_sub_reader; SBlank;
     SExpr (EMatch false (vr "index") (map struct_deser_arm fields ++ [skip_arm]))] None.
Definition struct_deser (name : ident) (fields : list sfield) : fndef :=
  deserialize_fn
    (Blk false
       ((match fields with [] => [] | _ => map struct_deser_let fields ++ [SBlank] end) ++
        [SLoop (struct_loop_block fields); SBlank] ++ missing_check fields)
       (Some (ECall (CStd FnOk) [EStruct (type_name name SIn)
          (map (fun f => (field_name f,
             let e := EVar (local_name f) in match sf_rule f with Required => EMethod e MUnwrap [] | _ => e end)) fields)]))).
(** 970-983: [size]. *)
Definition struct_size : fndef :=
  FnDef true (txt "size") None false [ParSelf] ty_usize (Blk false [] (Some (EField (vr "self") (txt "_size")))).

(** *** Choices *)
Definition has_fallback_out (f : sfield) : bool := match sf_rule f with Required => false | _ => true end.
(** The variables bound for a case: the payload unless the type is [Unit], and the fallback if there is one. *)
Definition case_args (by_ref : bool) (f : sfield) : list pat :=
  (if is_unit_sty (sf_type f) then [] else [PVar by_ref (txt "payload")]) ++
  (if has_fallback_out f then [PVar by_ref (txt "fallback")] else []).
Definition case_out (name : ident) (by_ref : bool) (f : sfield) : pat :=
  PCon [type_name name SOut; variant_name f] (case_args by_ref f).
(** A value of an enum type; the parentheses are left out if there is nothing between them. *)
Definition con (type variant : str) (args : list expr) : expr :=
  match args with [] => EVariant type variant | _ => ECall (CVariant type variant) args end.
(** 1039-1093: the body of [from]. *)
Definition choice_from (name : ident) (fields : list sfield) : fndef :=
  from_fn name
    (EMatch false (vr "message")
       (map (fun f => Arm (case_out name false f)
          (con (type_name name SIn) (variant_name f)
             ((if is_unit_sty (sf_type f) then [] else [gen_into (sf_type f) (vr "payload")]) ++
              match sf_rule f with
              | Optional => [ECall (CStd FnBoxNew) [EMethod (EParen (EDeref (vr "fallback"))) MInto []]]
              | _ => []
              end))) fields)).
(** 1097-1190: [atlas]. *)
Definition choice_atlas_arm (name : ident) (f : sfield) : arm :=
  let size := EBin OpAdd (header_size f) (vr "payload_size") in
  Arm (case_out name true f)
    (EBlock (Blk false
       ((if is_unit_sty (sf_type f) then [lets "payload" (ERef false EUnit)] else []) ++
        [lets "payload_atlas" (gen_atlas_calc indentation (sf_type f) true);
         lets "payload_size" (inline_block [lets "payload_atlas" (ERef false (vr "payload_atlas"))] (gen_atlas_lookup (sf_type f)))] ++
        (if has_fallback_out f then [lets "fallback_atlas" (EMethod (vr "fallback") MAtlas [])] else []))
       (Some (ECall (CVariant (type_name name SAtlas) (variant_name f))
          (if has_fallback_out f then
             [EBin OpAdd size (EMethod (vr "fallback_atlas") MSize []); vr "payload_atlas";
              ECall (CStd FnBoxNew) [vr "fallback_atlas"]]
           else [size; vr "payload_atlas"]))))).
Definition choice_atlas (name : ident) (fields : list sfield) : fndef :=
  FnDef true (txt "atlas") None false [ParSelf] (TyPath [type_name name SAtlas])
    (Blk false [] (Some (EMatch false (EDeref (vr "self")) (map (choice_atlas_arm name) fields)))).
(** 1191-1276: [serialize_with_atlas]. *)
Definition choice_ser_arm (name : ident) (f : sfield) : arm :=
  Arm (PPair (case_out name false f)
         (PCon [type_name name SAtlas; variant_name f]
            ([PWild; pv "payload_atlas"] ++ (if has_fallback_out f then [pv "fallback_atlas"] else []))))
    (EBlock (Blk false (serialize_header f :: gen_ser indentation (sf_type f) true)
       (Some (if has_fallback_out f
              then EMethod (vr "fallback") MSerializeWithAtlas [vr "writer"; vr "fallback_atlas"]
              else ECall (CStd FnOk) [EUnit])))).
Definition choice_ser (name : ident) (fields : list sfield) : fndef :=
  serialize_with_atlas_fn name
    (Blk false [] (Some (EMatch false (EPair (vr "self") (vr "atlas"))
       (map (choice_ser_arm name) fields ++ [Arm (PPair PWild PWild) EPanic])))).
(** 1280-1380: [deserialize_from_reader_ref]. *)
Definition choice_deser_arm (name : ident) (f : sfield) : arm :=
  let payload := if is_unit_sty (sf_type f) then [] else [vr "payload"] in
  let result args := [SSemi (EReturn (ECall (CStd FnOk) [con (type_name name SIn) (variant_name f) (payload ++ args)]))] in
  Arm (PInt (sf_index f) [])
    (EBlock (Blk false
       (gen_deser indentation (sf_type f) true ++
        match sf_rule f with
        | Optional =>
            lets "fallback" (ECall (CStd FnBoxNew) [ETry (ECall (CDeserialize [type_name name SIn]) [mut_reader])]) ::
            result [vr "fallback"]
        | _ => SSemi (ETry (ECall (CTop indentation FnFinish) [mut_reader])) :: result []
        end) None)).
Definition choice_loop_block (name : ident) (fields : list sfield) : block :=
  Blk false
    [SLet false index_and_size None (ETry (ECall (CTop indentation FnDeserializeFieldHeader) [mut_reader])); SBlank;
     take_sub_reader; SBlank;
     SExpr (EMatch false (vr "index") (map (choice_deser_arm name) fields ++ [skip_arm]))] None.
Definition choice_deser (name : ident) (fields : list sfield) : fndef :=
  deserialize_fn (Blk false [SLoop (choice_loop_block name fields)] None).
(** 1384-1408: [size]. *)
Definition choice_size (name : ident) (fields : list sfield) : fndef :=
  FnDef true (txt "size") None false [ParSelf] ty_usize
    (Blk false [] (Some (EMatch false (EDeref (vr "self"))
       (map (fun f => Arm (PCon [type_name name SAtlas; variant_name f]
                             ([pref "size"; PWild] ++ (if has_fallback_out f then [PWild] else []))) (EDeref (vr "size"))) fields)))).

(** The items of a declaration: 515-983 and 985-1408. *)
Definition gen_decl (d : sdecl) : list item :=
  let name := sd_name d in
  let fields := sd_fields d in
  let trait t := Some (TyPath (repeat (txt "super") indentation ++ [txt t])) in
  let data x := match sd_kind d with SkStruct => gen_struct name fields x | SkChoice => gen_choice name fields x end in
  let pick (a b : ident -> list sfield -> fndef) := match sd_kind d with SkStruct => a name fields | SkChoice => b name fields end in
  [data SAtlas; data SOut; data SIn;
   IImpl (trait "Serialize"%string) (type_name name SOut) [gen_size_fn; gen_serialize_fn];
   IImpl (trait "Deserialize"%string) (type_name name SIn) [gen_deserialize_fn];
   IImpl (Some (TyApp (txt "From") (TyPath [type_name name SOut]))) (type_name name SIn) [pick struct_from choice_from];
   IImpl None (type_name name SOut) [pick struct_atlas choice_atlas; pick struct_ser choice_ser];
   IImpl None (type_name name SIn) [pick struct_deser choice_deser];
   IImpl None (type_name name SAtlas) [pick (fun _ _ => struct_size) choice_size]].
End Schema.

(** generate_rust.rs 446-497 [write_module], [write_module_contents] and 500-512 (the loop of [write_schema]). *)
Fixpoint gen_module (u : unicode) (indentation : nat) (ns : namespace) (m : smodule) : rmod :=
  match m with
  | SModule children schema =>
      RMod (map (fun c => (rust_name u (fst c) Snake None, gen_module u (S indentation) (ns ++ [fst c]) (snd c))) children)
           (flat_map (gen_decl u ns schema indentation) (ss_decls schema))
  end.
