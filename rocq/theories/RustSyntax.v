(** Syntax trees for the fragment of Rust that /repo/src/generate_rust.rs emits per declaration, and the text they stand
    for. The trees also say where lines are broken. Definitions only. *)
From Verif Require Export Identifier Printer.

(** Types. *)
Inductive rtype :=
| TyPath (segments : list str)              (** [super::foo::BarIn], [usize] *)
| TyApp (name : str) (arg : rtype)          (** [Vec<...>] *)
| TyUnit                                    (** [()] *)
| TyPair (a b : rtype)                      (** [(a, b)] *)
| TyRef (mutable : bool) (t : rtype).       (** [&t], [&mut t] *)

(** Patterns. *)
Inductive pat :=
| PWild
| PVar (by_ref : bool) (x : str)
| PInt (n : N) (suffix : str)
| PRange (lo hi : N) (suffix : str)
| PCon (path : list str) (args : list pat)
| PPair (a b : pat).

(** The functions at the top of the generated file (generate_rust.rs 158-386) that the rest of it calls. *)
Inductive top_fn :=
| FnZigzagEncode | FnZigzagDecode | FnVarintSize | FnSerializeVarint | FnDeserializeVarint | FnFieldHeaderSize
| FnSerializeFieldHeader | FnDeserializeFieldHeader | FnSkip | FnFinish.
(** Functions and constructors of the standard library. *)
Inductive std_fn :=
| FnOk | FnErr | FnSome | FnBoxNew | FnVecNew | FnStringNew | FnUsizeFrom | FnU64From | FnF64FromLeBytes | FnU64FromLeBytes
| FnTake | FnReadExact | FnReadToEnd | FnReadToString | FnErrorNew.
(** Methods: of the standard library, and of the generated types. *)
Inductive meth :=
| MIter | MIntoIter | MMap | MCollect | MFold | MZip | MLen | MInto | MAsRef | MMapOr | MAsBytes | MToBits | MToLeBytes
| MWriteAll | MPush | MReserveExact | MGetOrInsert | MIsNone | MUnwrap | MKind
| MAtlas | MSize | MSerializeWithAtlas.
Inductive binop := OpAdd | OpMul | OpEq | OpNe.

(** What is called. *)
Inductive callee :=
| CTop (supers : nat) (f : top_fn)          (** [super::super::skip] *)
| CStd (f : std_fn)
| CDeserialize (type : list str)            (** [super::foo::BarIn::deserialize_from_reader_ref] *)
| CVariant (type variant : str)             (** [BarIn::Baz] *)
| CLocal (f : str).                         (** a function defined in the same block *)

Inductive param := ParSelf | Par (mutable : bool) (x : str) (t : rtype).

Inductive expr :=
| EVar (x : str)
| EInt (n : N) (suffix : str)
| EBool (b : bool)
| EUnit
| EZeroF64                                  (** [0.0_f64] *)
| ENone
| EMissingFields (supers : nat)             (** the constant of generate_rust.rs 146 *)
| EInvalidData
| EVariant (type variant : str)
| EField (e : expr) (name : str)
| ECall (f : callee) (args : list expr)
| ECallLines (f : callee) (args : list expr)  (** one argument per line *)
| EMethod (e : expr) (m : meth) (args : list expr)
| ERef (mutable : bool) (e : expr)
| EDeref (e : expr)
| EBin (op : binop) (a b : expr)
| ECast (e : expr) (t : str)
| EParen (e : expr)
| EPair (a b : expr)
| EClosure (params : list str) (body : expr)
| ETry (e : expr)
| EBlock (b : block)
| EIf (c : expr) (yes no : block)
| EMatch (inline : bool) (e : expr) (arms : list arm)
| EStruct (type : str) (fields : list (str * expr))
| ESum (terms : list expr)                  (** one summand per line *)
| EOrs (terms : list expr)                  (** one disjunct per line *)
| EZeros (n : N)                            (** [[0; n]] *)
| EWhole (e : expr)                         (** [e[..]] *)
| EVecEmpty                                 (** [vec![]] *)
| EVecUnits (e : expr)                      (** [vec![(); e]] *)
| EPanic
| EReturn (e : expr)
| EBreak
with stmt :=
| SLet (mutable : bool) (p : pat) (t : option rtype) (e : expr)
| SSemi (e : expr)                          (** [e;] *)
| SExpr (e : expr)                          (** an expression that ends with a block, as a statement *)
| SFor (p : pat) (e : expr) (b : block)
| SLoop (b : block)
| SIf (c : expr) (b : block)
| SIfLet (p : pat) (e : expr) (b : block)
| SFn (f : fndef)
| SBlank                                    (** a blank line *)
with block := Blk (inline : bool) (ss : list stmt) (tail : option expr)
with arm := Arm (p : pat) (e : expr)
with fndef := FnDef (public : bool) (name : str) (bound : option str) (lines : bool) (params : list param) (ret : rtype) (body : block).

Inductive item :=
| IStruct (name : str) (fields : list (str * rtype))
| IEnum (name : str) (variants : list (str * list rtype))
| IImpl (trait : option rtype) (type : str) (fns : list fndef).

Inductive rmod := RMod (children : list (str * rmod)) (items : list item).

(** ** Text *)
Definition nl : str := [10].
(** generate_rust.rs 14, 1760-1766: [INDENTATION], [write_indentation]. *)
Definition indent (n : nat) : str := concat (repeat (txt "    ") n).
Fixpoint join_with (sep : str) (l : list str) : str :=
  match l with [] => [] | [x] => x | x :: l' => x ++ sep ++ join_with sep l' end.
Definition colons : str := txt "::".
Definition path_str (p : list str) : str := join_with colons p.
(** generate_rust.rs 1769-1775: [write_supers]. *)
Definition supers_str (n : nat) : str := concat (repeat (txt "super::") n).

(** Decimal numerals with underscores between groups of three digits. *)
Fixpoint group_digits (k : nat) (reversed acc : str) : str :=
  match reversed with
  | [] => acc
  | d :: rest => match k with
                 | O => group_digits 2 rest (d :: txt "_" ++ acc)
                 | S k' => group_digits k' rest (d :: acc)
                 end
  end.
Definition print_grouped (n : N) : str := group_digits 3 (rev (print_number n)) [].
Definition suffix_of (sfx : str) : str := match sfx with [] => [] | _ => txt "_" ++ sfx end.

Fixpoint type_str (t : rtype) : str :=
  match t with
  | TyPath p => path_str p
  | TyApp name arg => name ++ txt "<" ++ type_str arg ++ txt ">"
  | TyUnit => txt "()"
  | TyPair a b => txt "(" ++ type_str a ++ txt ", " ++ type_str b ++ txt ")"
  | TyRef m t => txt (if m then "&mut " else "&")%string ++ type_str t
  end.

Definition parens (args : list str) : str := txt "(" ++ join_with (txt ", ") args ++ txt ")".
Fixpoint pat_str (p : pat) : str :=
  match p with
  | PWild => txt "_"
  | PVar r x => (if r then txt "ref " else []) ++ x
  | PInt n sfx => print_number n ++ suffix_of sfx
  | PRange lo hi sfx => print_grouped lo ++ suffix_of sfx ++ txt "..=" ++ print_grouped hi ++ suffix_of sfx
  | PCon path [] => path_str path
  | PCon path args => path_str path ++ parens (map pat_str args)
  | PPair a b => parens [pat_str a; pat_str b]
  end.

Definition top_fn_str (f : top_fn) : str := txt
  (match f with
   | FnZigzagEncode => "zigzag_encode" | FnZigzagDecode => "zigzag_decode" | FnVarintSize => "varint_size_from_value"
   | FnSerializeVarint => "serialize_varint" | FnDeserializeVarint => "deserialize_varint"
   | FnFieldHeaderSize => "field_header_size" | FnSerializeFieldHeader => "serialize_field_header"
   | FnDeserializeFieldHeader => "deserialize_field_header" | FnSkip => "skip" | FnFinish => "finish"
   end)%string.
Definition std_fn_str (f : std_fn) : str := txt
  (match f with
   | FnOk => "Ok" | FnErr => "Err" | FnSome => "Some" | FnBoxNew => "Box::new" | FnVecNew => "Vec::new"
   | FnStringNew => "String::new" | FnUsizeFrom => "usize::from" | FnU64From => "u64::from"
   | FnF64FromLeBytes => "f64::from_le_bytes" | FnU64FromLeBytes => "u64::from_le_bytes"
   | FnTake => "::std::io::Read::take" | FnReadExact => "::std::io::Read::read_exact"
   | FnReadToEnd => "::std::io::Read::read_to_end" | FnReadToString => "::std::io::Read::read_to_string"
   | FnErrorNew => "::std::io::Error::new"
   end)%string.
Definition meth_str (m : meth) : str := txt
  (match m with
   | MIter => "iter" | MIntoIter => "into_iter" | MMap => "map" | MCollect => "collect::<Vec<_>>" | MFold => "fold"
   | MZip => "zip" | MLen => "len" | MInto => "into" | MAsRef => "as_ref" | MMapOr => "map_or" | MAsBytes => "as_bytes"
   | MToBits => "to_bits" | MToLeBytes => "to_le_bytes" | MWriteAll => "write_all" | MPush => "push"
   | MReserveExact => "reserve_exact" | MGetOrInsert => "get_or_insert" | MIsNone => "is_none" | MUnwrap => "unwrap"
   | MKind => "kind" | MAtlas => "atlas" | MSize => "size" | MSerializeWithAtlas => "serialize_with_atlas"
   end)%string.
Definition binop_str (op : binop) : str :=
  txt (match op with OpAdd => " + " | OpMul => " * " | OpEq => " == " | OpNe => " != " end)%string.
Definition callee_str (f : callee) : str :=
  match f with
  | CTop n f => supers_str n ++ top_fn_str f
  | CStd f => std_fn_str f
  | CDeserialize p => path_str p ++ txt "::deserialize_from_reader_ref"
  | CVariant t v => t ++ colons ++ v
  | CLocal f => f
  end.
Definition param_str (p : param) : str :=
  match p with
  | ParSelf => txt "&self"
  | Par m x t => (if m then txt "mut " else []) ++ x ++ txt ": " ++ type_str t
  end.

(** [ind] is the indentation of the line the construct starts on. *)
Fixpoint expr_str (ind : nat) (e : expr) {struct e} : str :=
  match e with
  | EVar x => x
  | EInt n sfx => print_number n ++ suffix_of sfx
  | EBool b => txt (if b then "true" else "false")%string
  | EUnit => txt "()"
  | EZeroF64 => txt "0.0_f64"
  | ENone => txt "None"
  | EMissingFields n => supers_str n ++ txt "MISSING_FIELDS_ERROR_MESSAGE"
  | EInvalidData => txt "::std::io::ErrorKind::InvalidData"
  | EVariant t v => t ++ colons ++ v
  | EField e x => expr_str ind e ++ txt "." ++ x
  | ECall f args => callee_str f ++ parens (map (expr_str ind) args)
  | ECallLines f args =>
      callee_str f ++ txt "(" ++ nl ++ concat (map (fun a => indent (S ind) ++ expr_str (S ind) a ++ txt "," ++ nl) args) ++
      indent ind ++ txt ")"
  | EMethod e m args => expr_str ind e ++ txt "." ++ meth_str m ++ parens (map (expr_str ind) args)
  | ERef m e => txt (if m then "&mut " else "&")%string ++ expr_str ind e
  | EDeref e => txt "*" ++ expr_str ind e
  | EBin op a b => expr_str ind a ++ binop_str op ++ expr_str ind b
  | ECast e t => expr_str ind e ++ txt " as " ++ t
  | EParen e => txt "(" ++ expr_str ind e ++ txt ")"
  | EPair a b => parens [expr_str ind a; expr_str ind b]
  | EClosure xs e => txt "|" ++ join_with (txt ", ") xs ++ txt "| " ++ expr_str ind e
  | ETry e => expr_str ind e ++ txt "?"
  | EBlock b => block_str ind b
  | EIf c yes no => txt "if " ++ expr_str ind c ++ txt " " ++ block_str ind yes ++ txt " else " ++ block_str ind no
  | EMatch true e arms =>
      txt "match " ++ expr_str ind e ++ txt " { " ++
      join_with (txt ", ") (map (fun a => match a with Arm p e => pat_str p ++ txt " => " ++ expr_str ind e end) arms) ++ txt " }"
  | EMatch false e arms =>
      txt "match " ++ expr_str ind e ++ txt " {" ++ nl ++
      concat (map (fun a => match a with Arm p e =>
        indent (S ind) ++ pat_str p ++ txt " => " ++ expr_str (S ind) e ++
        match e with EBlock _ => [] | _ => txt "," end ++ nl end) arms) ++ indent ind ++ txt "}"
  | EStruct t fs =>
      t ++ txt " {" ++ nl ++
      concat (map (fun f => indent (S ind) ++ fst f ++ txt ":" ++
        match snd f with ESum (_ :: _) => [] | _ => txt " " end ++ expr_str (S ind) (snd f) ++ txt "," ++ nl) fs) ++
      indent ind ++ txt "}"
  | ESum [] => txt "0"
  | ESum ts => nl ++ indent (S ind) ++ join_with (nl ++ indent (S ind) ++ txt "+ ") (map (expr_str ind) ts)
  | EOrs ts => join_with (nl ++ indent (S ind) ++ txt "|| ") (map (expr_str ind) ts)
  | EZeros n => txt "[0; " ++ print_number n ++ txt "]"
  | EWhole e => expr_str ind e ++ txt "[..]"
  | EVecEmpty => txt "vec![]"
  | EVecUnits e => txt "vec![(); " ++ expr_str ind e ++ txt "]"
  | EPanic => txt "panic!()"
  | EReturn e => txt "return " ++ expr_str ind e
  | EBreak => txt "break"
  end
with stmt_str (ind : nat) (s : stmt) {struct s} : str :=
  match s with
  | SLet m p t e =>
      txt "let " ++ (if m then txt "mut " else []) ++ pat_str p ++
      match t with Some t => txt ": " ++ type_str t | None => [] end ++ txt " = " ++ expr_str ind e ++ txt ";"
  | SSemi e => expr_str ind e ++ txt ";"
  | SExpr e => expr_str ind e
  | SFor p e b => txt "for " ++ pat_str p ++ txt " in " ++ expr_str ind e ++ txt " " ++ block_str ind b
  | SLoop b => txt "loop " ++ block_str ind b
  | SIf c b => txt "if " ++ expr_str ind c ++ txt " " ++ block_str ind b
  | SIfLet p e b => txt "if let " ++ pat_str p ++ txt " = " ++ expr_str ind e ++ txt " " ++ block_str ind b
  | SFn f => fn_str ind f
  | SBlank => []
  end
with block_str (ind : nat) (b : block) {struct b} : str :=
  match b with
  | Blk true ss tail =>
      txt "{ " ++ concat (map (fun s => stmt_str ind s ++ txt " ") ss) ++
      match tail with Some e => expr_str ind e ++ txt " " | None => [] end ++ txt "}"
  | Blk false [] None => txt "{}"
  | Blk false ss tail =>
      txt "{" ++ nl ++
      concat (map (fun s => match s with SBlank => nl | _ => indent (S ind) ++ stmt_str (S ind) s ++ nl end) ss) ++
      match tail with Some e => indent (S ind) ++ expr_str (S ind) e ++ nl | None => [] end ++ indent ind ++ txt "}"
  end
with fn_str (ind : nat) (f : fndef) {struct f} : str :=
  match f with
  | FnDef public name bound lines params ret body =>
      (if public then txt "pub " else []) ++ txt "fn " ++ name ++
      match bound with Some b => txt "<T: " ++ b ++ txt ">" | None => [] end ++
      (if lines then txt "(" ++ nl ++ concat (map (fun p => indent (S ind) ++ param_str p ++ txt "," ++ nl) params) ++ indent ind ++ txt ")"
       else parens (map param_str params)) ++
      txt " -> " ++ type_str ret ++ txt " " ++ block_str ind body
  end.

(** generate_rust.rs 17: [TRAITS_TO_DERIVE]. *)
Definition derive_line (ind : nat) : str := indent ind ++ txt "#[derive(Clone, Debug)]" ++ nl.
Definition item_str (ind : nat) (i : item) : str :=
  match i with
  | IStruct name fields =>
      derive_line ind ++ indent ind ++ txt "pub struct " ++ name ++ txt " {" ++ nl ++
      concat (map (fun f => indent (S ind) ++ txt "pub " ++ fst f ++ txt ": " ++ type_str (snd f) ++ txt "," ++ nl) fields) ++
      indent ind ++ txt "}" ++ nl
  | IEnum name variants =>
      derive_line ind ++ indent ind ++ txt "pub enum " ++ name ++ txt " {" ++ nl ++
      concat (map (fun v => indent (S ind) ++ fst v ++
        match snd v with [] => [] | ts => parens (map type_str ts) end ++ txt "," ++ nl) variants) ++
      indent ind ++ txt "}" ++ nl
  | IImpl trait type fns =>
      indent ind ++ txt "impl " ++ match trait with Some t => type_str t ++ txt " for " | None => [] end ++ type ++ txt " {" ++ nl ++
      join_with nl (map (fun f => indent (S ind) ++ fn_str (S ind) f ++ nl) fns) ++
      indent ind ++ txt "}" ++ nl
  end.

(** generate_rust.rs 446-497: [write_module], [write_module_contents]; the declarations are separated by blank lines, and
    so are the items of each (500-1417). *)
Fixpoint mod_str (ind : nat) (m : rmod) : str :=
  match m with
  | RMod children items =>
      join_with nl
        (map (fun c => indent ind ++ txt "pub mod " ++ fst c ++ txt " {" ++ nl ++ mod_str (S ind) (snd c) ++ indent ind ++ txt "}" ++ nl) children ++
         map (item_str ind) items)
  end.
