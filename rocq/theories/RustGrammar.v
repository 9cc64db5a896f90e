(** How a Rust compiler reads program text: the tokens, and the grammar of the part of Rust that is used in the declarations
    of a generated file. A specification, written from the Rust reference ("Lexical structure", "Statements and
    expressions", "Expression precedence"), which says nothing about how typical lays out code. *)
From Verif Require Export RustSyntax IdentSpec TokenSpec.
Local Open Scope string_scope.
Local Open Scope list_scope.
Local Open Scope N_scope.

(** ** Tokens *)

(** A word is an identifier, a keyword or a number. *)
Inductive rtok := Word (w : str) | Sym (s : str).

Definition word_char (c : N) : bool := ascii_is_letter c || ascii_is_digit c || (c =? 95).
(** Symbols of more than one character, and what they start with. The symbols [<] and [>] always stand for themselves, as
    they do within types; comparisons and shifts are not used. Nor are comments, characters and strings: [/] and quotes
    would be symbols, but the grammar below has none. *)
Definition compounds : list str := map txt
  ["::"; "->"; "=>"; "=="; "!="; ".."; "..="; "..."; "&&"; "&="; "||"; "|="; "+="; "-="; "*="; "/="; "%="; "^="].
Fixpoint starts_with (p s : str) : bool :=
  match p, s with
  | [], _ => true
  | c :: p', d :: s' => (c =? d) && starts_with p' s'
  | _, [] => false
  end.
(** Whether a token that has started with [p] goes on with [c], if [rest] follows. A point belongs to a number if a digit
    comes next. *)
Definition goes_on (p : str) (c : N) (rest : str) : bool :=
  match p with
  | [] => false
  | d :: _ =>
      if word_char d then
        word_char c || (str_eqb p (txt "r") && (c =? 35)) ||
        (ascii_is_digit d && (c =? 46) && negb (existsb (N.eqb 46) p) && match rest with n :: _ => ascii_is_digit n | [] => false end)
      else existsb (starts_with (p ++ [c])) compounds
  end.
Definition token_of (p : str) : list rtok :=
  match p with [] => [] | c :: _ => if word_char c then [Word p] else [Sym p] end.
(** The tokens of [s] if [p] has been read of a token: each token is as long as possible. *)
Fixpoint lex (p s : str) : list rtok :=
  match s with
  | [] => token_of p
  | c :: s' => if goes_on p c s' then lex (p ++ [c]) s'
               else token_of p ++ (if ascii_is_white c then lex [] s' else lex [c] s')
  end.
Definition tokens (s : str) : list rtok := lex [] s.

(** ** Grammar *)
Definition w (s : String.string) : rtok := Word (txt s).
Definition y (s : String.string) : rtok := Sym (txt s).

(** Lists: with commas between the elements, and possibly after the last one; one after the other; with an operator between
    them. *)
Section Lists.
Context {A : Type} (G : list rtok -> A -> Prop).
Inductive commas : list rtok -> list A -> Prop :=
| commas_none : commas [] []
| commas_last ts a : G ts a -> commas ts [a]
| commas_more ts a tss l : G ts a -> commas tss l -> commas (ts ++ [y ","] ++ tss) (a :: l).
Inductive many : list rtok -> list A -> Prop :=
| many_none : many [] []
| many_more ts a tss l : G ts a -> many tss l -> many (ts ++ tss) (a :: l).
Inductive chain (op : rtok) : list rtok -> list A -> Prop :=
| chain_one ts a : G ts a -> chain op ts [a]
| chain_more ts a tss l : G ts a -> chain op tss l -> chain op (ts ++ [op] ++ tss) (a :: l).
End Lists.

(** Names, and paths spelled [text]. *)
Definition is_name (x : str) : Prop := legal_rust_identifier x.
Definition is_segment (x : str) : Prop := is_name x \/ In x (map txt ["self"; "super"; "Self"; "crate"]).
Fixpoint with_colons (p : list str) : list rtok :=
  match p with [] => [] | [x] => [Word x] | x :: p' => Word x :: y "::" :: with_colons p' end.
Inductive gpath : list rtok -> str -> Prop :=
| gpath_relative p : p <> [] -> Forall is_segment p -> gpath (with_colons p) (path_str p)
| gpath_global p : p <> [] -> Forall is_segment p -> gpath (y "::" :: with_colons p) (colons ++ path_str p).

(** Numbers: decimal digits, with underscores between them, and a type. *)
Definition number (n : N) (suffix text : str) : Prop :=
  exists ds d rest, decimal ds n /\ ds = filter (fun c => negb (c =? 95)) (d :: rest) /\ ascii_is_digit d = true /\
    text = (d :: rest) ++ match suffix with [] => [] | _ => txt "_" ++ suffix end /\ In suffix (map txt [""; "u64"; "usize"]).

Inductive gtype : list rtok -> rtype -> Prop :=
| g_ty_path p : p <> [] -> Forall is_segment p -> gtype (with_colons p) (TyPath p)
| g_ty_app ts name ts' t : gpath ts name -> gtype ts' t -> gtype (ts ++ [y "<"] ++ ts' ++ [y ">"]) (TyApp name t)
| g_ty_unit : gtype [y "("; y ")"] TyUnit
| g_ty_pair ts a ts' b : gtype ts a -> gtype ts' b -> gtype ([y "("] ++ ts ++ [y ","] ++ ts' ++ [y ")"]) (TyPair a b)
| g_ty_ref ts t : gtype ts t -> gtype ([y "&"] ++ ts) (TyRef false t)
| g_ty_ref_mut ts t : gtype ts t -> gtype ([y "&"; w "mut"] ++ ts) (TyRef true t).

Inductive gpat : list rtok -> pat -> Prop :=
| g_wild : gpat [w "_"] PWild
| g_pvar x : is_name x -> gpat [Word x] (PVar false x)
| g_pref x : is_name x -> gpat [w "ref"; Word x] (PVar true x)
| g_pint n sfx t : number n sfx t -> gpat [Word t] (PInt n sfx)
| g_prange lo hi sfx t t' : number lo sfx t -> number hi sfx t' -> gpat [Word t; y "..="; Word t'] (PRange lo hi sfx)
| g_pconst p : (2 <= length p)%nat -> Forall is_segment p -> gpat (with_colons p) (PCon p [])
| g_pcon p ts args : p <> [] -> Forall is_segment p -> args <> [] -> commas gpat ts args ->
    gpat (with_colons p ++ [y "("] ++ ts ++ [y ")"]) (PCon p args)
| g_ppair ts a ts' b : gpat ts a -> gpat ts' b -> gpat ([y "("] ++ ts ++ [y ","] ++ ts' ++ [y ")"]) (PPair a b).

Definition gparam (ts : list rtok) (p : param) : Prop :=
  match p with
  | ParSelf => ts = [y "&"; w "self"]
  | Par m x t => is_name x /\ exists ts', gtype ts' t /\ ts = (if m then [w "mut"] else []) ++ [Word x; y ":"] ++ ts'
  end.

(** What functions, the constant and methods are called. *)
Definition top_word (f : top_fn) : str := txt
  (match f with
   | FnZigzagEncode => "zigzag_encode" | FnZigzagDecode => "zigzag_decode" | FnVarintSize => "varint_size_from_value"
   | FnSerializeVarint => "serialize_varint" | FnDeserializeVarint => "deserialize_varint" | FnFieldHeaderSize => "field_header_size"
   | FnSerializeFieldHeader => "serialize_field_header" | FnDeserializeFieldHeader => "deserialize_field_header"
   | FnSkip => "skip" | FnFinish => "finish"
   end)%string.
Definition std_words (f : std_fn) : str :=
  match f with
  | FnOk => txt "Ok" | FnErr => txt "Err" | FnSome => txt "Some" | FnBoxNew => txt "Box::new" | FnVecNew => txt "Vec::new"
  | FnStringNew => txt "String::new" | FnUsizeFrom => txt "usize::from" | FnU64From => txt "u64::from"
  | FnF64FromLeBytes => txt "f64::from_le_bytes" | FnU64FromLeBytes => txt "u64::from_le_bytes"
  | FnTake => txt "::std::io::Read::take" | FnReadExact => txt "::std::io::Read::read_exact"
  | FnReadToEnd => txt "::std::io::Read::read_to_end" | FnReadToString => txt "::std::io::Read::read_to_string"
  | FnErrorNew => txt "::std::io::Error::new"
  end.
Definition from_top (n : nat) (x : str) : str := path_str (repeat (txt "super") n ++ [x]).
Definition callee_words (f : callee) : str :=
  match f with
  | CTop n f => from_top n (top_word f)
  | CStd f => std_words f
  | CDeserialize p => path_str (p ++ [txt "deserialize_from_reader_ref"])
  | CVariant t v => path_str [t; v]
  | CLocal f => f
  end.
Definition meth_word (m : meth) : str := txt
  (match m with
   | MIter => "iter" | MIntoIter => "into_iter" | MMap => "map" | MCollect => "collect" | MFold => "fold" | MZip => "zip"
   | MLen => "len" | MInto => "into" | MAsRef => "as_ref" | MMapOr => "map_or" | MAsBytes => "as_bytes" | MToBits => "to_bits"
   | MToLeBytes => "to_le_bytes" | MWriteAll => "write_all" | MPush => "push" | MReserveExact => "reserve_exact"
   | MGetOrInsert => "get_or_insert" | MIsNone => "is_none" | MUnwrap => "unwrap" | MKind => "kind" | MAtlas => "atlas"
   | MSize => "size" | MSerializeWithAtlas => "serialize_with_atlas"
   end)%string.
(** A method after its point; [collect] with the type of the result. *)
Definition gmeth (ts : list rtok) (m : meth) : Prop :=
  match m with
  | MCollect => ts = [w "collect"; y "::"; y "<"; w "Vec"; y "<"; w "_"; y ">"; y ">"]
  | _ => ts = [Word (meth_word m)] /\ is_name (meth_word m)
  end.
Definition bin_symbol (op : binop) : rtok :=
  match op with OpAdd => y "+" | OpMul => y "*" | OpEq => y "==" | OpNe => y "!=" end.
(** The reference, "Expression precedence". *)
Definition bin_level (op : binop) : nat := match op with OpMul => 6 | OpAdd => 5 | OpEq | OpNe => 3 end.

(** Expressions that end a statement without a semicolon. *)
Definition block_like (e : expr) : bool := match e with EBlock _ | EIf _ _ _ | EMatch _ _ _ => true | _ => false end.
(** Whether an expression starts with one of these. At the beginning of a statement or of an arm it would end there. *)
Fixpoint starts_block (e : expr) : bool :=
  match e with
  | EBlock _ | EIf _ _ _ | EMatch _ _ _ => true
  | EField e _ | EMethod e _ _ | EBin _ e _ | ECast e _ | ETry e | EWhole e => starts_block e
  | ESum (e :: _) | EOrs (e :: _) => starts_block e
  | _ => false
  end.
Definition stands (e : expr) : bool := block_like e || negb (starts_block e).

(** [gexpr bare l ts e]: the tokens [ts] read as the expression [e], whose operators outside parentheses bind at least as
    tightly as level [l]. 9: what may be followed by a point or [?]. 8: prefix operators. 7: [as]. 6: [*]. 5: [+].
    3: [==] and [!=], which do not associate. 1: [||]. 0: closures, [return]. [+] and [||] associate to the left. [bare]: before
    the block of an [if], [match] or [for] there are no struct expressions outside parentheses.

    Some parts of a tree are layout and not grammar: [SBlank], the flags of blocks, matches and functions, and the difference
    between [ECall] and [ECallLines]. Whether a path names a variable, a constant, a function of the file or one of the standard
    library is a matter of scopes and not of grammar. At the end of a block, [SExpr e] and the tail [Some e] read the same; the
    generator writes the former only where [e] has the type [()]. *)
Inductive gexpr : bool -> nat -> list rtok -> expr -> Prop :=
| g_var bare x : is_name x \/ x = txt "self" -> gexpr bare 9 [Word x] (EVar x)
| g_int bare n sfx t : number n sfx t -> gexpr bare 9 [Word t] (EInt n sfx)
| g_true bare : gexpr bare 9 [w "true"] (EBool true)
| g_false bare : gexpr bare 9 [w "false"] (EBool false)
| g_unit bare : gexpr bare 9 [y "("; y ")"] EUnit
| g_zero bare : gexpr bare 9 [w "0.0_f64"] EZeroF64
| g_none bare : gexpr bare 9 [w "None"] ENone
| g_missing bare n ts : gpath ts (from_top n (txt "MISSING_FIELDS_ERROR_MESSAGE")) -> gexpr bare 9 ts (EMissingFields n)
| g_invalid bare ts : gpath ts (txt "::std::io::ErrorKind::InvalidData") -> gexpr bare 9 ts EInvalidData
| g_variant bare t v : is_segment t -> is_name v -> gexpr bare 9 [Word t; y "::"; Word v] (EVariant t v)
| g_field bare ts e x : gexpr bare 9 ts e -> is_name x -> gexpr bare 9 (ts ++ [y "."; Word x]) (EField e x)
| g_index bare ts e x n : gexpr bare 9 ts e -> decimal x n -> x <> [] -> gexpr bare 9 (ts ++ [y "."; Word x]) (EField e x)
| g_call bare ts f ts' args : gpath ts (callee_words f) -> commas (gexpr false 0) ts' args ->
    gexpr bare 9 (ts ++ [y "("] ++ ts' ++ [y ")"]) (ECall f args)
| g_call_lines bare ts f ts' args : gpath ts (callee_words f) -> commas (gexpr false 0) ts' args ->
    gexpr bare 9 (ts ++ [y "("] ++ ts' ++ [y ")"]) (ECallLines f args)
| g_method bare ts e ts' m ts'' args : gexpr bare 9 ts e -> gmeth ts' m -> commas (gexpr false 0) ts'' args ->
    gexpr bare 9 (ts ++ [y "."] ++ ts' ++ [y "("] ++ ts'' ++ [y ")"]) (EMethod e m args)
| g_ref bare ts e : gexpr bare 8 ts e -> gexpr bare 8 ([y "&"] ++ ts) (ERef false e)
| g_ref_mut bare ts e : gexpr bare 8 ts e -> gexpr bare 8 ([y "&"; w "mut"] ++ ts) (ERef true e)
| g_deref bare ts e : gexpr bare 8 ts e -> gexpr bare 8 ([y "*"] ++ ts) (EDeref e)
| g_add_mul bare op ts a ts' b : op = OpAdd \/ op = OpMul ->
    gexpr bare (bin_level op) ts a -> gexpr bare (S (bin_level op)) ts' b ->
    gexpr bare (bin_level op) (ts ++ [bin_symbol op] ++ ts') (EBin op a b)
| g_compare bare op ts a ts' b : op = OpEq \/ op = OpNe ->
    gexpr bare (S (bin_level op)) ts a -> gexpr bare (S (bin_level op)) ts' b ->
    gexpr bare (bin_level op) (ts ++ [bin_symbol op] ++ ts') (EBin op a b)
| g_cast bare ts e t : gexpr bare 7 ts e -> is_name t -> gexpr bare 7 (ts ++ [w "as"; Word t]) (ECast e t)
| g_paren bare ts e : gexpr false 0 ts e -> gexpr bare 9 ([y "("] ++ ts ++ [y ")"]) (EParen e)
| g_pair bare ts a ts' b : gexpr false 0 ts a -> gexpr false 0 ts' b ->
    gexpr bare 9 ([y "("] ++ ts ++ [y ","] ++ ts' ++ [y ")"]) (EPair a b)
| g_closure bare xs ts ts' e : xs <> [] -> commas (fun ts x => is_name x /\ ts = [Word x]) ts xs -> gexpr bare 0 ts' e ->
    gexpr bare 0 ([y "|"] ++ ts ++ [y "|"] ++ ts') (EClosure xs e)
| g_try bare ts e : gexpr bare 9 ts e -> gexpr bare 9 (ts ++ [y "?"]) (ETry e)
| g_block bare ts b : gblock ts b -> gexpr bare 9 ts (EBlock b)
| g_if bare ts c ts' yes ts'' no : gexpr true 0 ts c -> gblock ts' yes -> gblock ts'' no ->
    gexpr bare 9 ([w "if"] ++ ts ++ ts' ++ [w "else"] ++ ts'') (EIf c yes no)
| g_match bare inline ts e ts' arms : gexpr true 0 ts e -> garms ts' arms ->
    gexpr bare 9 ([w "match"] ++ ts ++ [y "{"] ++ ts' ++ [y "}"]) (EMatch inline e arms)
| g_struct t ts fs : is_segment t ->
    commas (fun ts f => is_name (fst f) /\ exists ts', gexpr false 0 ts' (snd f) /\ ts = [Word (fst f); y ":"] ++ ts') ts fs ->
    gexpr false 9 ([Word t; y "{"] ++ ts ++ [y "}"]) (EStruct t fs)
| g_no_sum bare : gexpr bare 9 [w "0"] (ESum [])
| g_sum bare ts es : chain (gexpr bare 6) (y "+") ts es -> gexpr bare 5 ts (ESum es)
| g_ors bare ts es : chain (gexpr bare 2) (y "||") ts es -> gexpr bare 1 ts (EOrs es)
| g_zeros bare n t : number n [] t -> gexpr bare 9 [y "["; w "0"; y ";"; Word t; y "]"] (EZeros n)
| g_whole bare ts e : gexpr bare 9 ts e -> gexpr bare 9 (ts ++ [y "["; y ".."; y "]"]) (EWhole e)
| g_vec_empty bare : gexpr bare 9 [w "vec"; y "!"; y "["; y "]"] EVecEmpty
| g_vec_units bare ts e : gexpr false 0 ts e ->
    gexpr bare 9 ([w "vec"; y "!"; y "["; y "("; y ")"; y ";"] ++ ts ++ [y "]"]) (EVecUnits e)
| g_panic bare : gexpr bare 9 [w "panic"; y "!"; y "("; y ")"] EPanic
| g_return bare ts e : gexpr bare 0 ts e -> gexpr bare 0 ([w "return"] ++ ts) (EReturn e)
| g_break bare : gexpr bare 9 [w "break"] EBreak
| g_weaken bare l l' ts e : gexpr bare l ts e -> (l' <= l)%nat -> gexpr bare l' ts e
with garms : list rtok -> list arm -> Prop :=
| g_no_arms : garms [] []
| g_last_arm ts p ts' e : gpat ts p -> gexpr false 0 ts' e -> stands e = true -> garms (ts ++ [y "=>"] ++ ts') [Arm p e]
| g_arm ts p ts' e ts'' arms : gpat ts p -> gexpr false 0 ts' e -> stands e = true -> garms ts'' arms ->
    garms (ts ++ [y "=>"] ++ ts' ++ [y ","] ++ ts'') (Arm p e :: arms)
| g_block_arm ts p ts' b ts'' arms : gpat ts p -> gblock ts' b -> garms ts'' arms ->
    garms (ts ++ [y "=>"] ++ ts' ++ ts'') (Arm p (EBlock b) :: arms)
with gstmt : list rtok -> stmt -> Prop :=
| g_let ts p tt t ts' e : gpat ts p -> gannotation tt t -> gexpr false 0 ts' e ->
    gstmt ([w "let"] ++ ts ++ tt ++ [y "="] ++ ts' ++ [y ";"]) (SLet false p t e)
| g_let_mut x tt t ts' e : is_name x -> gannotation tt t -> gexpr false 0 ts' e ->
    gstmt ([w "let"; w "mut"; Word x] ++ tt ++ [y "="] ++ ts' ++ [y ";"]) (SLet true (PVar false x) t e)
| g_semi ts e : gexpr false 0 ts e -> starts_block e = false -> gstmt (ts ++ [y ";"]) (SSemi e)
| g_stmt ts e : gexpr false 0 ts e -> block_like e = true -> gstmt ts (SExpr e)
| g_for ts p ts' e ts'' b : gpat ts p -> gexpr true 0 ts' e -> gblock ts'' b ->
    gstmt ([w "for"] ++ ts ++ [w "in"] ++ ts' ++ ts'') (SFor p e b)
| g_loop ts b : gblock ts b -> gstmt ([w "loop"] ++ ts) (SLoop b)
| g_if_stmt ts c ts' b : gexpr true 0 ts c -> gblock ts' b -> gstmt ([w "if"] ++ ts ++ ts') (SIf c b)
| g_if_let ts p ts' e ts'' b : gpat ts p -> gexpr true 3 ts' e -> gblock ts'' b ->
    gstmt ([w "if"; w "let"] ++ ts ++ [y "="] ++ ts' ++ ts'') (SIfLet p e b)
| g_fn_stmt ts f : gfn ts f -> gstmt ts (SFn f)
| g_blank : gstmt [] SBlank
with gannotation : list rtok -> option rtype -> Prop :=
| g_no_type : gannotation [] None
| g_type ts t : gtype ts t -> gannotation ([y ":"] ++ ts) (Some t)
with gblock : list rtok -> block -> Prop :=
| g_blk inline ts ss : many gstmt ts ss -> gblock ([y "{"] ++ ts ++ [y "}"]) (Blk inline ss None)
| g_blk_tail inline ts ss ts' e : many gstmt ts ss -> gexpr false 0 ts' e -> stands e = true ->
    gblock ([y "{"] ++ ts ++ ts' ++ [y "}"]) (Blk inline ss (Some e))
with gfn : list rtok -> fndef -> Prop :=
| g_fn public name tb bound lines tp params tr ret ts body : is_name name ->
    match bound with Some b => exists ts, gpath ts b /\ tb = [y "<"; w "T"; y ":"] ++ ts ++ [y ">"] | None => tb = [] end ->
    commas gparam tp params -> gtype tr ret -> gblock ts body ->
    gfn ((if public : bool then [w "pub"] else []) ++ [w "fn"; Word name] ++ tb ++ [y "("] ++ tp ++ [y ")"; y "->"] ++ tr ++ ts)
        (FnDef public name bound lines params ret body).

Definition derives : list rtok := [y "#"; y "["; w "derive"; y "("; w "Clone"; y ","; w "Debug"; y ")"; y "]"].
Inductive gitem : list rtok -> item -> Prop :=
| g_struct_item name ts fields : is_name name ->
    commas (fun ts f => is_name (fst f) /\ exists ts', gtype ts' (snd f) /\ ts = [w "pub"; Word (fst f); y ":"] ++ ts') ts fields ->
    gitem (derives ++ [w "pub"; w "struct"; Word name; y "{"] ++ ts ++ [y "}"]) (IStruct name fields)
| g_enum_item name ts variants : is_name name ->
    commas (fun ts v => is_name (fst v) /\
      ((snd v = [] /\ ts = [Word (fst v)]) \/
       (snd v <> [] /\ exists ts', commas gtype ts' (snd v) /\ ts = [Word (fst v); y "("] ++ ts' ++ [y ")"]))) ts variants ->
    gitem (derives ++ [w "pub"; w "enum"; Word name; y "{"] ++ ts ++ [y "}"]) (IEnum name variants)
| g_impl_item name ts fns : is_name name -> many gfn ts fns ->
    gitem ([w "impl"; Word name; y "{"] ++ ts ++ [y "}"]) (IImpl None name fns)
| g_impl_trait tt trait name ts fns : is_name name -> gtype tt trait -> many gfn ts fns ->
    gitem ([w "impl"] ++ tt ++ [w "for"; Word name; y "{"] ++ ts ++ [y "}"]) (IImpl (Some trait) name fns).
Inductive gmod : list rtok -> rmod -> Prop :=
| g_mod ts children ts' items :
    many (fun ts c => is_name (fst c) /\ exists ts', gmod ts' (snd c) /\ ts = [w "pub"; w "mod"; Word (fst c); y "{"] ++ ts' ++ [y "}"]) ts children ->
    many gitem ts' items ->
    gmod (ts ++ ts') (RMod children items).
