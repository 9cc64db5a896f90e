(** The functions at the top of every generated Rust file (generate_rust.rs 158-386) as syntax trees, and the text the
    trees stand for. (The text itself is [prelude_lines] in RustText.v; C80 says that it is the text of these trees.)
    Names of variables and functions are Coq strings here. Definitions only. *)
From Coq Require Export String.
From Verif Require Export RustText.
Local Open Scope string_scope.
Local Open Scope list_scope.

(** The integer types. *)
Inductive ity := U8 | U32 | U64 | Usize | I64.
(** The types of parameters and results. *)
Inductive pty := YInt (t : ity) | YBool | YUnit | YGeneric (** [&mut T] *) | YResult (t : pty) | YPair (a b : pty).

Inductive pop := PShl | PShr | PXor | POr | PAnd | PAdd | PGt.
(** Functions of the standard library, or of the file itself. *)
Inductive pfun := XTransmute (a b : ity) | XU64From | XFromLe | XMin | XOk | XErr | XErrorNew | XOwn (f : string).
Inductive pmeth := XTrailingZeros | XWriteAll | XReadExact | XFillBuf | XIsEmpty | XLen | XConsume | XWrappingAdd.
Inductive ppat := QDec (n : N) | QBits (digits : nat) (n : N) | QRange (lo hi : N) (t : ity) | QVar (x : string) | QWild.

Inductive pexpr :=
| XVar (x : string)
| XDec (n : N) (t : option ity)             (** [16_512_u64] *)
| XBits (digits : nat) (n : N)              (** [0b0000_0010] *)
| XUnit
| XStr (s : string)
| XUnexpectedEof
| XOp (op : pop) (a b : pexpr)
| XAddLine (a b : pexpr)                    (** [a + b], the [+] on a line of its own *)
| XNeg (a : pexpr)
| XCast (a : pexpr) (t : ity)
| XParen (a : pexpr)
| XPair (a b : pexpr)
| XCall (f : pfun) (args : list pexpr)
| XCallLines (f : pfun) (args : list pexpr) (** one argument per line *)
| XMethod (a : pexpr) (m : pmeth) (args : list pexpr)
| XRefMut (a : pexpr)                       (** [&mut a] *)
| XDeref (a : pexpr)                        (** [*a] *)
| XBytes (lines : bool) (es : list pexpr)   (** [&[a, b]], on one line or one element per line *)
| XZeros (n : N)                            (** [[0; n]] *)
| XAt (x : string) (i : N)                  (** [x[i]] *)
| XAll (x : string)                         (** [x[..]] *)
| XFirst (x : string) (n : pexpr)           (** [x[0..n]] *)
| XTry (a : pexpr)
| XReturn (a : pexpr)
| XUnsafe (a : pexpr)
| XBlock (b : pblock)
| XIf (c : pexpr) (yes no : pblock)
| XMatch (a : pexpr) (arms : list parm)
with pstmt :=
| QLet (mutable : bool) (x : string) (a : pexpr)
| QSub (x : string) (a : pexpr)             (** [x -= a;] *)
| QSemi (a : pexpr)
| QWhile (c : pexpr) (b : pblock)
| QLoop (b : pblock)
| QIf (c : pexpr) (b : pblock)
| QBlank
with pblock := QBlk (ss : list pstmt) (tail : option pexpr)
with parm := QArm (p : ppat) (a : pexpr).

Record pparam := mkParam { p_mutable : bool; p_name : string; p_type : pty }.
Record pfn := mkFn { f_name : string; f_bound : option string; f_lines : bool; f_params : list pparam; f_ret : pty; f_body : pblock }.

(** ** Text *)
Definition ity_str (t : ity) : str :=
  txt (match t with U8 => "u8" | U32 => "u32" | U64 => "u64" | Usize => "usize" | I64 => "i64" end).
Fixpoint pty_str (t : pty) : str :=
  match t with
  | YInt t => ity_str t
  | YBool => txt "bool"
  | YUnit => txt "()"
  | YGeneric => txt "&mut T"
  | YResult t => txt "io::Result<" ++ pty_str t ++ txt ">"
  | YPair a b => parens [pty_str a; pty_str b]
  end.
Definition pop_str (op : pop) : str :=
  txt (match op with
       | PShl => " << " | PShr => " >> " | PXor => " ^ " | POr => " | " | PAnd => " & " | PAdd => " + " | PGt => " > "
       end).
Definition pfun_str (f : pfun) : str :=
  match f with
  | XTransmute a b => txt "transmute::<" ++ ity_str a ++ txt ", " ++ ity_str b ++ txt ">"
  | XU64From => txt "u64::from" | XFromLe => txt "u64::from_le_bytes" | XMin => txt "min" | XOk => txt "Ok"
  | XErr => txt "Err" | XErrorNew => txt "Error::new" | XOwn f => txt f
  end.
Definition pmeth_str (m : pmeth) : str :=
  txt (match m with
       | XTrailingZeros => "trailing_zeros" | XWriteAll => "write_all" | XReadExact => "read_exact"
       | XFillBuf => "fill_buf" | XIsEmpty => "is_empty" | XLen => "len" | XConsume => "consume"
       | XWrappingAdd => "wrapping_add"
       end).
Definition typed (n : N) (t : option ity) : str :=
  print_grouped n ++ match t with Some t => txt "_" ++ ity_str t | None => [] end.
(** Binary digits, the last [digits] of them, four to a group. *)
Fixpoint bits_str (digits : nat) (n : N) : str :=
  match digits with
  | O => []
  | S d => (if N.testbit n (N.of_nat d) then txt "1" else txt "0") ++
           (if Nat.eqb d 4 then txt "_" else []) ++ bits_str d n
  end.
Definition ppat_str (p : ppat) : str :=
  match p with
  | QDec n => print_grouped n
  | QBits d n => txt "0b" ++ bits_str d n
  | QRange lo hi t => typed lo (Some t) ++ txt "..=" ++ typed hi (Some t)
  | QVar x => txt x
  | QWild => txt "_"
  end.

(** [ind] is the indentation of the line the construct starts on. *)
Fixpoint pexpr_str (ind : nat) (a : pexpr) {struct a} : str :=
  match a with
  | XVar x => txt x
  | XDec n t => typed n t
  | XBits d n => txt "0b" ++ bits_str d n
  | XUnit => txt "()"
  | XStr s => txt """" ++ txt s ++ txt """"
  | XUnexpectedEof => txt "ErrorKind::UnexpectedEof"
  | XOp op a b => pexpr_str ind a ++ pop_str op ++ pexpr_str ind b
  | XAddLine a b => pexpr_str ind a ++ nl ++ indent (S ind) ++ txt "+ " ++ pexpr_str ind b
  | XNeg a => txt "-" ++ pexpr_str ind a
  | XCast a t => pexpr_str ind a ++ txt " as " ++ ity_str t
  | XParen a => txt "(" ++ pexpr_str ind a ++ txt ")"
  | XPair a b => parens [pexpr_str ind a; pexpr_str ind b]
  | XCall f args => pfun_str f ++ parens (map (pexpr_str ind) args)
  | XCallLines f args =>
      pfun_str f ++ txt "(" ++ nl ++ concat (map (fun a => indent (S ind) ++ pexpr_str (S ind) a ++ txt "," ++ nl) args) ++
      indent ind ++ txt ")"
  | XMethod a m args => pexpr_str ind a ++ txt "." ++ pmeth_str m ++ parens (map (pexpr_str ind) args)
  | XRefMut a => txt "&mut " ++ pexpr_str ind a
  | XDeref a => txt "*" ++ pexpr_str ind a
  | XBytes false es => txt "&[" ++ join_with (txt ", ") (map (pexpr_str ind) es) ++ txt "]"
  | XBytes true es =>
      txt "&[" ++ nl ++ concat (map (fun a => indent (S ind) ++ pexpr_str (S ind) a ++ txt "," ++ nl) es) ++ indent ind ++ txt "]"
  | XZeros n => txt "[0; " ++ print_grouped n ++ txt "]"
  | XAt x i => txt x ++ txt "[" ++ print_grouped i ++ txt "]"
  | XAll x => txt x ++ txt "[..]"
  | XFirst x n => txt x ++ txt "[0.." ++ pexpr_str ind n ++ txt "]"
  | XTry a => pexpr_str ind a ++ txt "?"
  | XReturn a => txt "return " ++ pexpr_str ind a
  | XUnsafe a => txt "unsafe { " ++ pexpr_str ind a ++ txt " }"
  | XBlock b => pblock_str ind b
  | XIf c yes no => txt "if " ++ pexpr_str ind c ++ txt " " ++ pblock_str ind yes ++ txt " else " ++ pblock_str ind no
  | XMatch a arms =>
      txt "match " ++ pexpr_str ind a ++ txt " {" ++ nl ++
      concat (map (fun r => match r with QArm p a =>
        indent (S ind) ++ ppat_str p ++ txt " => " ++ pexpr_str (S ind) a ++
        match a with XBlock _ => [] | _ => txt "," end ++ nl end) arms) ++ indent ind ++ txt "}"
  end
with pstmt_str (ind : nat) (s : pstmt) {struct s} : str :=
  match s with
  | QLet m x a => txt "let " ++ (if m then txt "mut " else []) ++ txt x ++ txt " = " ++ pexpr_str ind a ++ txt ";"
  | QSub x a => txt x ++ txt " -= " ++ pexpr_str ind a ++ txt ";"
  | QSemi a => pexpr_str ind a ++ txt ";"
  | QWhile c b => txt "while " ++ pexpr_str ind c ++ txt " " ++ pblock_str ind b
  | QLoop b => txt "loop " ++ pblock_str ind b
  | QIf c b => txt "if " ++ pexpr_str ind c ++ txt " " ++ pblock_str ind b
  | QBlank => []
  end
with pblock_str (ind : nat) (b : pblock) {struct b} : str :=
  match b with
  | QBlk ss tail =>
      txt "{" ++ nl ++
      concat (map (fun s => match s with QBlank => nl | _ => indent (S ind) ++ pstmt_str (S ind) s ++ nl end) ss) ++
      match tail with Some e => indent (S ind) ++ pexpr_str (S ind) e ++ nl | None => [] end ++ indent ind ++ txt "}"
  end.
Definition pparam_str (p : pparam) : str :=
  (if p_mutable p then txt "mut " else []) ++ txt (p_name p) ++ txt ": " ++ pty_str (p_type p).
Definition pfn_str (f : pfn) : str :=
  txt "fn " ++ txt (f_name f) ++ match f_bound f with Some b => txt "<T: " ++ txt b ++ txt ">" | None => [] end ++
  (if f_lines f
   then txt "(" ++ nl ++ concat (map (fun p => indent 1 ++ pparam_str p ++ txt "," ++ nl) (f_params f)) ++ txt ")"
   else parens (map pparam_str (f_params f))) ++
  txt " -> " ++ pty_str (f_ret f) ++ txt " " ++ pblock_str 0 (f_body f) ++ nl.

(** ** The functions *)
Definition u64s (n : N) : pexpr := XDec n (Some U64).
Definition u32s (n : N) : pexpr := XDec n (Some U32).

(** generate_rust.rs 158-160. *)
Definition fn_zigzag_encode : pfn :=
  mkFn "zigzag_encode" None false [mkParam false "value" (YInt I64)] (YInt U64)
    (QBlk [] (Some (XUnsafe (XOp PXor
      (XCall (XTransmute I64 U64) [XOp PShr (XVar "value") (u32s 63)])
      (XCall (XTransmute I64 U64) [XOp PShl (XVar "value") (u32s 1)]))))).

(** 162-164. *)
Definition fn_zigzag_decode : pfn :=
  mkFn "zigzag_decode" None false [mkParam false "value" (YInt U64)] (YInt I64)
    (QBlk [] (Some (XUnsafe (XOp PXor
      (XCall (XTransmute U64 I64) [XOp PShr (XVar "value") (u32s 1)])
      (XNeg (XCall (XTransmute U64 I64) [XOp PAnd (XVar "value") (XDec 1 None)])))))).

(** 166-178. *)
Definition size_arm (lo hi size : N) : parm := QArm (QRange lo hi U64) (XDec size None).
Definition fn_varint_size_from_value : pfn :=
  mkFn "varint_size_from_value" None false [mkParam false "value" (YInt U64)] (YInt Usize)
    (QBlk [] (Some (XMatch (XVar "value")
      [size_arm 0 127 1;
       size_arm 128 16511 2;
       size_arm 16512 2113663 3;
       size_arm 2113664 270549119 4;
       size_arm 270549120 34630287487 5;
       size_arm 34630287488 4432676798591 6;
       size_arm 4432676798592 567382630219903 7;
       size_arm 567382630219904 72624976668147839 8;
       size_arm 72624976668147840 18446744073709551615 9]))).

(** 180-182. *)
Definition fn_varint_size_from_first_byte : pfn :=
  mkFn "varint_size_from_first_byte" None false [mkParam false "first_byte" (YInt U8)] (YInt U32)
    (QBlk [] (Some (XOp PAdd (XMethod (XVar "first_byte") XTrailingZeros []) (XDec 1 None)))).

(** 184-272. *)
Definition low_byte (shift marker : N) : pexpr :=
  XOp POr (XParen (XCast (XParen (XOp PShl (XVar "value") (u32s shift))) U8)) (XBits 8 marker).
Definition byte_at (shift : N) : pexpr := XCast (XParen (XOp PShr (XVar "value") (u32s shift))) U8.
Definition varint_arm (lo hi : N) (es : list pexpr) : parm :=
  QArm (QRange lo hi U64)
    (XBlock (QBlk [QSub "value" (u64s lo)] (Some (XMethod (XVar "writer") XWriteAll [XBytes true es])))).
Definition fn_serialize_varint : pfn :=
  mkFn "serialize_varint" (Some "Write") false [mkParam true "value" (YInt U64); mkParam false "writer" YGeneric] (YResult YUnit)
    (QBlk [] (Some (XMatch (XVar "value")
      [QArm (QRange 0 127 U64) (XMethod (XVar "writer") XWriteAll [XBytes false [low_byte 1 1]]);
       varint_arm 128 16511 [low_byte 2 2; byte_at 6];
       varint_arm 16512 2113663 [low_byte 3 4; byte_at 5; byte_at 13];
       varint_arm 2113664 270549119 [low_byte 4 8; byte_at 4; byte_at 12; byte_at 20];
       varint_arm 270549120 34630287487 [low_byte 5 16; byte_at 3; byte_at 11; byte_at 19; byte_at 27];
       varint_arm 34630287488 4432676798591 [low_byte 6 32; byte_at 2; byte_at 10; byte_at 18; byte_at 26; byte_at 34];
       varint_arm 4432676798592 567382630219903
         [low_byte 7 64; byte_at 1; byte_at 9; byte_at 17; byte_at 25; byte_at 33; byte_at 41];
       varint_arm 567382630219904 72624976668147839
         [XBits 8 128; XCast (XVar "value") U8; byte_at 8; byte_at 16; byte_at 24; byte_at 32; byte_at 40; byte_at 48];
       varint_arm 72624976668147840 18446744073709551615
         [XBits 8 0; XCast (XVar "value") U8; byte_at 8; byte_at 16; byte_at 24; byte_at 32; byte_at 40; byte_at 48;
          byte_at 56]]))).

(** 274-301. *)
Definition first_part (shift : N) : pexpr := XCall XU64From [XOp PShr (XVar "first_byte") (u32s shift)].
Definition second_part (shift : N) : pexpr := XParen (XOp PShl (XVar "remaining_bytes_value") (u32s shift)).
Definition fn_deserialize_varint : pfn :=
  mkFn "deserialize_varint" (Some "BufRead") false [mkParam false "reader" YGeneric] (YResult (YInt U64))
    (QBlk
      [QLet true "first_byte_buffer" (XZeros 1);
       QSemi (XTry (XMethod (XVar "reader") XReadExact [XRefMut (XAll "first_byte_buffer")]));
       QLet false "first_byte" (XAt "first_byte_buffer" 0);
       QLet false "size_minus_one" (XMethod (XVar "first_byte") XTrailingZeros []);
       QBlank;
       QLet true "remaining_bytes_buffer" (XZeros 8);
       QSemi (XTry (XMethod (XVar "reader") XReadExact
         [XRefMut (XFirst "remaining_bytes_buffer" (XCast (XVar "size_minus_one") Usize))]));
       QLet false "remaining_bytes_value" (XCall XFromLe [XVar "remaining_bytes_buffer"]);
       QBlank]
      (Some (XMatch (XVar "size_minus_one")
        [QArm (QDec 0) (XCall XOk [first_part 1]);
         QArm (QDec 1) (XCall XOk [XOp PAdd (XOp PAdd (u64s 128) (first_part 2)) (second_part 6)]);
         QArm (QDec 2) (XCall XOk [XOp PAdd (XOp PAdd (u64s 16512) (first_part 3)) (second_part 5)]);
         QArm (QDec 3) (XCall XOk [XOp PAdd (XOp PAdd (u64s 2113664) (first_part 4)) (second_part 4)]);
         QArm (QDec 4) (XBlock (QBlk []
           (Some (XCall XOk [XOp PAdd (XOp PAdd (u64s 270549120) (first_part 5)) (second_part 3)]))));
         QArm (QDec 5) (XCall XOk [XAddLine (XAddLine (u64s 34630287488) (first_part 6)) (second_part 2)]);
         QArm (QDec 6) (XCall XOk [XAddLine (XAddLine (u64s 4432676798592) (first_part 7)) (second_part 1)]);
         QArm (QDec 7) (XCall XOk [XOp PAdd (u64s 567382630219904) (XVar "remaining_bytes_value")]);
         QArm QWild (XCall XOk [XMethod (u64s 72624976668147840) XWrappingAdd [XVar "remaining_bytes_value"]])]))).

(** 303-316. *)
Definition tag_of (mode : N) : pexpr := XOp POr (XParen (XOp PShl (XVar "index") (u32s 2))) (XBits 2 mode).
Definition tag_size (mode : N) : pexpr := XCall (XOwn "varint_size_from_value") [tag_of mode].
Definition fn_field_header_size : pfn :=
  mkFn "field_header_size" None false
    [mkParam false "index" (YInt U64); mkParam false "payload_size" (YInt Usize); mkParam false "integer_encoded" YBool]
    (YInt Usize)
    (QBlk [] (Some (XMatch (XVar "payload_size")
      [QArm (QDec 0) (tag_size 0);
       QArm (QDec 8) (tag_size 1);
       QArm (QVar "size") (XBlock (QBlk [] (Some (XIf (XVar "integer_encoded")
         (QBlk [] (Some (tag_size 2)))
         (QBlk [] (Some (XAddLine (tag_size 3)
           (XCall (XOwn "varint_size_from_value") [XCast (XVar "size") U64]))))))))]))).

(** 318-336. *)
Definition write_tag (mode : N) : pexpr := XCall (XOwn "serialize_varint") [tag_of mode; XVar "writer"].
Definition fn_serialize_field_header : pfn :=
  mkFn "serialize_field_header" (Some "Write") true
    [mkParam false "writer" YGeneric; mkParam false "index" (YInt U64); mkParam false "payload_size" (YInt Usize);
     mkParam false "integer_encoded" YBool]
    (YResult YUnit)
    (QBlk [] (Some (XMatch (XVar "payload_size")
      [QArm (QDec 0) (write_tag 0);
       QArm (QDec 8) (write_tag 1);
       QArm (QVar "size") (XBlock (QBlk [] (Some (XIf (XVar "integer_encoded")
         (QBlk [] (Some (write_tag 2)))
         (QBlk [QSemi (XTry (write_tag 3))]
           (Some (XCall (XOwn "serialize_varint") [XCast (XVar "size") U64; XVar "writer"])))))))]))).

(** 338-362. *)
Definition reborrow : pexpr := XRefMut (XDeref (XVar "reader")).
Definition fn_deserialize_field_header : pfn :=
  mkFn "deserialize_field_header" (Some "BufRead") false [mkParam false "reader" YGeneric]
    (YResult (YPair (YInt U64) (YInt Usize)))
    (QBlk
      [QLet false "tag" (XTry (XCall (XOwn "deserialize_varint") [reborrow]));
       QBlank;
       QLet false "index" (XOp PShr (XVar "tag") (u32s 2));
       QBlank;
       QLet false "size" (XMatch (XOp PAnd (XVar "tag") (XBits 2 3))
         [QArm (QBits 2 0) (XDec 0 None);
          QArm (QBits 2 1) (XDec 8 None);
          QArm (QBits 2 2) (XBlock (QBlk
            [QLet false "buffer" (XTry (XMethod (XParen reborrow) XFillBuf []));
             QBlank;
             QIf (XMethod (XVar "buffer") XIsEmpty []) (QBlk
               [QSemi (XReturn (XCall XErr [XCallLines XErrorNew [XUnexpectedEof; XStr "Error decoding field."]]))] None);
             QBlank]
            (Some (XCast (XCall (XOwn "varint_size_from_first_byte") [XAt "buffer" 0]) Usize))));
          QArm QWild (XCast (XTry (XCall (XOwn "deserialize_varint") [reborrow])) Usize)]);
       QBlank]
      (Some (XCall XOk [XPair (XVar "index") (XVar "size")]))).

(** 364-373. *)
Definition fn_skip : pfn :=
  mkFn "skip" (Some "BufRead") false [mkParam false "reader" YGeneric; mkParam true "amount" (YInt Usize)] (YResult YUnit)
    (QBlk
      [QWhile (XOp PGt (XVar "amount") (XDec 0 None)) (QBlk
        [QLet false "buffer" (XTry (XMethod (XVar "reader") XFillBuf []));
         QLet false "num_bytes_to_consume" (XCall XMin [XMethod (XVar "buffer") XLen []; XVar "amount"]);
         QSemi (XMethod (XVar "reader") XConsume [XVar "num_bytes_to_consume"]);
         QSub "amount" (XVar "num_bytes_to_consume")] None);
       QBlank]
      (Some (XCall XOk [XUnit]))).

(** 375-386. *)
Definition fn_finish : pfn :=
  mkFn "finish" (Some "BufRead") false [mkParam false "reader" YGeneric] (YResult YUnit)
    (QBlk
      [QLoop (QBlk
        [QLet false "buffer" (XTry (XMethod (XVar "reader") XFillBuf []));
         QBlank;
         QIf (XMethod (XVar "buffer") XIsEmpty []) (QBlk [QSemi (XReturn (XCall XOk [XUnit]))] None);
         QBlank;
         QLet false "buffer_size" (XMethod (XVar "buffer") XLen []);
         QSemi (XMethod (XVar "reader") XConsume [XVar "buffer_size"])] None)] None).

Definition prelude_fns : list pfn :=
  [fn_zigzag_encode; fn_zigzag_decode; fn_varint_size_from_value; fn_varint_size_from_first_byte; fn_serialize_varint;
   fn_deserialize_varint; fn_field_header_size; fn_serialize_field_header; fn_deserialize_field_header; fn_skip; fn_finish].

(** 137-156: what precedes the functions. *)
Definition prelude_head : list str := firstn 20 prelude_lines.
(** The text of the functions, a blank line between one and the next. *)
Definition prelude_fns_text : str := join_with nl (map pfn_str prelude_fns).
