(** How a TypeScript compiler reads program text: the tokens, and the grammar of the part of TypeScript that is used in
    generated files. A specification, written from ECMA-262 ("Lexical Grammar", "Automatic Semicolon Insertion",
    "Expressions", "Statements") and, for types, from the TypeScript handbook. It says nothing about how typical lays out
    code. *)
From Verif Require Export TsSyntax IdentSpec TokenSpec.
Local Open Scope string_scope.
Local Open Scope list_scope.
Local Open Scope N_scope.

(** ** Tokens *)

(** A word is an identifier, a keyword or a number; a string is given without its quotes. *)
Inductive jtok := JWord (w : str) | JSym (s : str) | JString (s : str).

Definition word_char (c : N) : bool := ascii_is_letter c || ascii_is_digit c || (c =? 95) || (c =? 36).
(** ECMA-262 12.8: punctuators of more than one character. Comments, templates, strings in double quotes and regular
    expressions are not used: [/], backquotes and double quotes would be symbols, but the grammar below has none. *)
Definition punctuators : list str := map txt
  ["?."; "..."; "<="; ">="; "=="; "!="; "==="; "!=="; "**"; "++"; "--"; "<<"; ">>"; ">>>"; "&&"; "||"; "??"; "+="; "-="; "*="; "/=";
   "%="; "**="; "<<="; ">>="; ">>>="; "&="; "|="; "^="; "&&="; "||="; "??="; "=>"; "//"; "/*"].
Fixpoint starts_with (p s : str) : bool :=
  match p, s with
  | [], _ => true
  | c :: p', d :: s' => (c =? d) && starts_with p' s'
  | _, [] => false
  end.
(** A string has been closed. Within strings there are no escapes, see [plain] below. *)
Definition closed (p : str) : bool := match p with _ :: _ :: _ => last p 0 =? 39 | _ => false end.
(** Whether a token that has started with [p] goes on with [c]. A point after the digits of a number belongs to the number. *)
Definition goes_on (p : str) (c : N) : bool :=
  match p with
  | [] => false
  | d :: _ =>
      if d =? 39 then negb (closed p)
      else if word_char d then word_char c || (ascii_is_digit d && (c =? 46) && negb (existsb (N.eqb 46) p))
      else existsb (starts_with (p ++ [c])) punctuators
  end.
Definition token_of (p : str) : list jtok :=
  match p with
  | [] => []
  | c :: p' => if c =? 39 then (if closed p then [JString (removelast p')] else [JSym p]) else if word_char c then [JWord p] else [JSym p]
  end.
(** ECMA-262 12.10.1, restricted productions: at a line break after one of these words a semicolon is inserted. The other rules for
    the insertion of semicolons apply only where the grammar does not allow the next token. (TypeScript itself has a few more places
    where no line break is allowed, which are not looked at here: before [as] and the brackets of an array type, and after [type] and
    [namespace].) *)
Definition restricted (p : str) : bool := existsb (str_eqb p) (map txt ["return"; "throw"; "break"; "continue"; "yield"]).
(** The tokens of [s] if [p] has been read of a token; [r]: the token before was a restricted word. Each token is as long as
    possible. *)
Fixpoint lex (r : bool) (p s : str) : list jtok :=
  match s with
  | [] => token_of p
  | c :: s' =>
      if goes_on p c then lex r (p ++ [c]) s'
      else
        let r' := match p with [] => r | _ => restricted p end in
        token_of p ++
        (if (c =? 10) || (c =? 13) then (if r' then [JSym (txt ";")] else []) ++ lex false [] s'
         else if ascii_is_white c then lex r' [] s' else lex false [c] s')
  end.
Definition tokens (s : str) : list jtok := lex false [] s.

(** ** Grammar *)
Definition w (s : String.string) : jtok := JWord (txt s).
Definition y (s : String.string) : jtok := JSym (txt s).

(** Lists: with a separator between the elements, and possibly after the last one; one after the other; with an operator
    between them. *)
Section Lists.
Context {A : Type} (G : list jtok -> A -> Prop).
Inductive separated (sep : jtok) : list jtok -> list A -> Prop :=
| separated_none : separated sep [] []
| separated_last ts a : G ts a -> separated sep ts [a]
| separated_more ts a tss l : G ts a -> separated sep tss l -> separated sep (ts ++ [sep] ++ tss) (a :: l).
Inductive many : list jtok -> list A -> Prop :=
| many_none : many [] []
| many_more ts a tss l : G ts a -> many tss l -> many (ts ++ tss) (a :: l).
Inductive chain (op : jtok) : list jtok -> list A -> Prop :=
| chain_one ts a : G ts a -> chain op ts [a]
| chain_more ts a tss l : G ts a -> chain op tss l -> chain op (ts ++ [op] ++ tss) (a :: l).
End Lists.
Definition commas {A : Type} (G : list jtok -> A -> Prop) := separated G (y ",").

(** Identifiers: letters, digits, [_] and [$], not starting with a digit, and not a reserved word. *)
Definition is_ident (x : str) : Prop :=
  match x with [] => False | c :: _ => ascii_is_digit c = false end /\ Forall (fun c => word_char c = true) x /\ ~ In x ecma_reserved.
Fixpoint dotted (p : list str) : list jtok :=
  match p with [] => [] | [x] => [JWord x] | x :: p' => JWord x :: y "." :: dotted p' end.
(** What is between quotes stands for itself: no escapes, quotes or line breaks. *)
Definition plain (s : str) : Prop := Forall (fun c => c <> 39 /\ c <> 92 /\ c <> 10 /\ c <> 13 /\ c < 128) s.

(** ECMA-262 12.9.3: decimal digits without leading zeros, with single underscores between digits; or [0b] and binary digits. *)
Inductive spread : str -> str -> Prop :=
| spread_one d : spread [d] [d]
| spread_digit d ds t : spread ds t -> spread (d :: ds) (d :: t)
| spread_underscore d ds t : spread ds t -> spread (d :: ds) (d :: 95 :: t).
Definition decimal_literal (n : N) (t : str) : Prop :=
  exists ds, decimal ds n /\ spread ds t /\ (forall ds', ds = 48 :: ds' -> ds = t /\ ds' = []).
Inductive binary : str -> N -> Prop :=
| binary_nil : binary [] 0
| binary_snoc s n d : binary s n -> d < 2 -> binary (s ++ [48 + d]) (2 * n + d).
Definition binary_literal (n : N) (t : str) : Prop := exists ds t', t = txt "0b" ++ t' /\ binary ds n /\ spread ds t'.

(** Types: level 2 is what may be followed by [[]], level 1 is a union. *)
Inductive gtype : nat -> list jtok -> ttype -> Prop :=
| g_ty_path p : p <> [] -> Forall is_ident p -> gtype 2 (dotted p) (TtPath p)
| g_ty_null : gtype 2 [w "null"] (TtPath [txt "null"])
| g_ty_array ts t : gtype 2 ts t -> gtype 2 (ts ++ [y "["; y "]"]) (TtArray t)
| g_ty_obj ts fs : separated gmember (y ";") ts fs -> gtype 2 ([y "{"] ++ ts ++ [y "}"]) (TtObj fs)
| g_ty_lit s : plain s -> gtype 2 [JString s] (TtLit s)
| g_ty_tuple ts l : commas (gtype 1) ts l -> gtype 2 ([y "["] ++ ts ++ [y "]"]) (TtTuple l)
| g_ty_union ts a ts' b : gtype 1 ts a -> gtype 2 ts' b -> gtype 1 (ts ++ [y "|"] ++ ts') (TtUnion a b)
| g_ty_alone ts t : gtype 2 ts t -> gtype 1 ts t
with gmember : list jtok -> str * ttype -> Prop :=
| g_member x ts t : is_ident x -> gtype 1 ts t -> gmember ([JWord x; y ":"] ++ ts) (x, t).

(** ECMA-262 13: how tightly operators bind, as in the table of precedences of MDN, "Operator precedence". *)
Definition op_level (op : jop) : nat :=
  match op with
  | BMul | BMod => 12 | BAdd | BSub => 11 | BShl | BShr => 10 | BLt | BGt => 9 | BEq | BNe => 8 | BAnd => 7 | BOr => 5 | BBoth => 4
  end.
Definition op_symbol (op : jop) : jtok :=
  match op with
  | BAdd => y "+" | BSub => y "-" | BMul => y "*" | BMod => y "%" | BShl => y "<<" | BShr => y ">>" | BAnd => y "&" | BOr => y "|"
  | BLt => y "<" | BGt => y ">" | BEq => y "===" | BNe => y "!==" | BBoth => y "&&"
  end.
(** The assignment operators with arithmetic. *)
Definition op_assign (op : jop) : option jtok :=
  match op with
  | BAdd => Some (y "+=") | BSub => Some (y "-=") | BMul => Some (y "*=") | BMod => Some (y "%=") | BShl => Some (y "<<=")
  | BShr => Some (y ">>=") | BAnd => Some (y "&=") | BOr => Some (y "|=") | BBoth => Some (y "&&=")
  | BLt | BGt | BEq | BNe => None
  end.
Definition callee_path (f : jcallee) : list str :=
  match f with
  | CFn f => [f]
  | CPath p f => p ++ [f]
  | CGlobal GBigInt => [txt "BigInt"] | CGlobal GNumber => [txt "Number"] | CGlobal GArray => [txt "Array"]
  | CGlobal GObjectIs => [txt "Object"; txt "is"]
  end.
(** What classes and methods are called. *)
Definition class_word (c : jclass) : str := txt
  (match c with
   | ClsArrayBuffer => "ArrayBuffer" | ClsDataView => "DataView" | ClsUint8Array => "Uint8Array" | ClsError => "Error"
   | ClsRangeError => "RangeError" | ClsTextEncoder => "TextEncoder" | ClsTextDecoder => "TextDecoder"
   end)%string.
Definition meth_word (m : jmeth) : str := txt
  (match m with
   | MtPush => "push" | MtFill => "fill" | MtSlice => "slice" | MtSet => "set" | MtEncode => "encode" | MtDecode => "decode"
   | MtGetUint8 => "getUint8" | MtGetFloat64 => "getFloat64" | MtGetBigUint64 => "getBigUint64" | MtSetUint8 => "setUint8"
   | MtSetUint16 => "setUint16" | MtSetUint32 => "setUint32" | MtSetFloat64 => "setFloat64" | MtSetBigUint64 => "setBigUint64"
   end)%string.
(** Whether an expression starts with a brace. At the beginning of a statement it would be a block. *)
Fixpoint starts_brace (e : jexpr) : bool :=
  match e with
  | XObj _ _ => true
  | XProp e _ | XIndex e _ | XMethod _ e _ _ | XBin _ _ e _ | XCond e _ _ | XAs e _ | XInstance e _ => starts_brace e
  | XOrs (e :: _) => starts_brace e
  | _ => false
  end.

(** [gexpr l ts e]: the tokens [ts] read as the expression [e], whose operators outside parentheses bind at least as tightly as
    level [l]. 18: what may be followed by a point, a bracket or arguments. 17: numbers. 14: the prefix operator [-]. 12 to 4: binary
    operators, which associate to the left. 3: [||]. 2: conditionals. 1: assignments; [as] is only allowed here, so that nothing after the
    type could belong to it.

    Some parts of a tree are layout and not grammar: the flags [lines] and [newline], the format of a number, [JBlank]. Whether
    [x.f(e)] calls a method or a function of a namespace is a matter of scopes and not of grammar. *)
Inductive gexpr : nat -> list jtok -> jexpr -> Prop :=
| g_var x : is_ident x -> x <> txt "undefined" -> gexpr 18 [JWord x] (XVar x)
| g_num f n t : decimal_literal n t -> gexpr 17 [JWord t] (XNum f n)
| g_binary n t : binary_literal n t -> gexpr 17 [JWord t] (XNum Binary8 n)
| g_big grouped n t : decimal_literal n t -> gexpr 17 [JWord (t ++ txt "n")] (XBig grouped n)
| g_true : gexpr 18 [w "true"] (XBool true)
| g_false : gexpr 18 [w "false"] (XBool false)
| g_null : gexpr 18 [w "null"] XNull
| g_undefined : gexpr 18 [w "undefined"] XUndefined
| g_str s : plain s -> gexpr 18 [JString s] (XStr s)
| g_prop ts e x : gexpr 18 ts e -> is_ident x -> gexpr 18 (ts ++ [y "."; JWord x]) (XProp e x)
| g_index ts e ts' i : gexpr 18 ts e -> gexpr 1 ts' i -> gexpr 18 (ts ++ [y "["] ++ ts' ++ [y "]"]) (XIndex e i)
| g_call lines f ts args : Forall is_ident (callee_path f) -> commas (gexpr 1) ts args ->
    gexpr 18 (dotted (callee_path f) ++ [y "("] ++ ts ++ [y ")"]) (XCall lines f args)
| g_method lines ts e m ts' args : gexpr 18 ts e -> is_ident (meth_word m) -> commas (gexpr 1) ts' args ->
    gexpr 18 (ts ++ [y "."; JWord (meth_word m); y "("] ++ ts' ++ [y ")"]) (XMethod lines e m args)
| g_new lines c ts args : is_ident (class_word c) -> commas (gexpr 1) ts args ->
    gexpr 18 ([w "new"; JWord (class_word c); y "("] ++ ts ++ [y ")"]) (XNew lines c args)
| g_neg ts e : gexpr 14 ts e -> gexpr 14 ([y "-"] ++ ts) (XNeg e)
| g_bin newline op ts a ts' b : gexpr (op_level op) ts a -> gexpr (S (op_level op)) ts' b ->
    gexpr (op_level op) (ts ++ [op_symbol op] ++ ts') (XBin newline op a b)
| g_cond ts c ts' a ts'' b : gexpr 3 ts c -> gexpr 1 ts' a -> gexpr 1 ts'' b ->
    gexpr 2 (ts ++ [y "?"] ++ ts' ++ [y ":"] ++ ts'') (XCond c a b)
| g_paren lines ts e : gexpr 1 ts e -> gexpr 18 ([y "("] ++ ts ++ [y ")"]) (XParen lines e)
| g_arr lines ts l : commas (gexpr 1) ts l -> gexpr 18 ([y "["] ++ ts ++ [y "]"]) (XArr lines l)
| g_obj lines ts ps : commas gprop ts ps -> gexpr 18 ([y "{"] ++ ts ++ [y "}"]) (XObj lines ps)
| g_as ts e ts' t : gexpr 9 ts e -> gtype 1 ts' t -> gexpr 1 (ts ++ [w "as"] ++ ts') (XAs e t)
| g_in x ts e : plain x -> gexpr 10 ts e -> gexpr 9 ([JString x; w "in"] ++ ts) (XIn x e)
| g_instance ts e c : gexpr 9 ts e -> is_ident (class_word c) -> gexpr 9 (ts ++ [w "instanceof"; JWord (class_word c)]) (XInstance e c)
| g_ors ts l : chain (gexpr 4) (y "||") ts l -> gexpr 3 ts (XOrs l)
| g_weaken l l' ts e : gexpr l ts e -> (l' <= l)%nat -> gexpr l' ts e
with gprop : list jtok -> str * option jexpr -> Prop :=
| g_value x ts e : is_ident x -> gexpr 1 ts e -> gprop ([JWord x; y ":"] ++ ts) (x, Some e)
| g_short x : is_ident x -> gprop [JWord x] (x, None).

Definition gident (ts : list jtok) (x : str) : Prop := is_ident x /\ ts = [JWord x].
Definition gannotation (ts : list jtok) (t : option ttype) : Prop :=
  match t with None => ts = [] | Some t => exists ts', gtype 1 ts' t /\ ts = [y ":"] ++ ts' end.

Inductive gstmt : list jtok -> jstmt -> Prop :=
| g_const x tt t ts e : is_ident x -> gannotation tt t -> gexpr 1 ts e ->
    gstmt ([w "const"; JWord x] ++ tt ++ [y "="] ++ ts ++ [y ";"]) (JLet true x t (Some e))
| g_let x tt t ts e : is_ident x -> gannotation tt t -> gexpr 1 ts e ->
    gstmt ([w "let"; JWord x] ++ tt ++ [y "="] ++ ts ++ [y ";"]) (JLet false x t (Some e))
| g_declare x tt t : is_ident x -> gannotation tt t -> gstmt ([w "let"; JWord x] ++ tt ++ [y ";"]) (JLet false x t None)
| g_lets ts xs : chain gident (y ",") ts xs -> gstmt ([w "let"] ++ ts ++ [y ";"]) (JLets xs)
| g_let_tuple ts xs ts' e : commas gident ts xs -> gexpr 1 ts' e ->
    gstmt ([w "const"; y "["] ++ ts ++ [y "]"; y "="] ++ ts' ++ [y ";"]) (JLetTuple xs e)
| g_assign x ts e : is_ident x -> gexpr 1 ts e -> gstmt ([JWord x; y "="] ++ ts ++ [y ";"]) (JAssign x e)
| g_op_assign x op o ts e : is_ident x -> op_assign op = Some o -> gexpr 1 ts e ->
    gstmt ([JWord x; o] ++ ts ++ [y ";"]) (JOpAssign x op e)
| g_assign_tuple ts xs ts' e : commas gident ts xs -> gexpr 1 ts' e ->
    gstmt ([y "["] ++ ts ++ [y "]"; y "="] ++ ts' ++ [y ";"]) (JAssignTuple xs e)
| g_expr ts e : gexpr 18 ts e -> starts_brace e = false -> gstmt (ts ++ [y ";"]) (JExpr e)
| g_block ts b : gblock ts b -> gstmt ts (JBlock b)
| g_if ts branches : chain gbranch (w "else") ts branches -> gstmt ts (JIf branches None)
| g_if_else ts branches ts' b : chain gbranch (w "else") ts branches -> gblock ts' b -> gstmt (ts ++ [w "else"] ++ ts') (JIf branches (Some b))
| g_for x ts limit ts' b : is_ident x -> gexpr 10 ts limit -> gblock ts' b ->
    gstmt ([w "for"; y "("; w "let"; JWord x; y "="; w "0"; y ";"; JWord x; y "<"] ++ ts ++ [y ";"; JWord x; y "+="; w "1"; y ")"] ++ ts')
      (JFor x limit b)
| g_while ts c ts' b : gexpr 1 ts c -> gblock ts' b -> gstmt ([w "while"; y "("] ++ ts ++ [y ")"] ++ ts') (JWhile c b)
| g_break : gstmt [w "break"; y ";"] JBreak
| g_return ts e : gexpr 1 ts e -> gstmt ([w "return"] ++ ts ++ [y ";"]) (JReturn e)
| g_throw ts e : gexpr 1 ts e -> gstmt ([w "throw"] ++ ts ++ [y ";"]) (JThrow e)
| g_try ts b x ts' h : gblock ts b -> is_ident x -> gblock ts' h ->
    gstmt ([w "try"] ++ ts ++ [w "catch"; y "("; JWord x; y ")"] ++ ts') (JTry b x h)
| g_switch ts e ts' cases ts'' default : gexpr 1 ts e -> many gcase ts' cases -> gclause ts'' default ->
    gstmt ([w "switch"; y "("] ++ ts ++ [y ")"; y "{"] ++ ts' ++ [w "default"; y ":"] ++ ts'' ++ [y "}"]) (JSwitch e cases default)
| g_blank : gstmt [] JBlank
with gblock : list jtok -> list jstmt -> Prop :=
| g_blk ts ss : many gstmt ts ss -> gblock ([y "{"] ++ ts ++ [y "}"]) ss
with gbranch : list jtok -> jexpr * list jstmt -> Prop :=
| g_branch ts c ts' b : gexpr 1 ts c -> gblock ts' b -> gbranch ([w "if"; y "("] ++ ts ++ [y ")"] ++ ts') (c, b)
with gcase : list jtok -> jexpr * (bool * list jstmt) -> Prop :=
| g_case ts e ts' b : gexpr 1 ts e -> gclause ts' b -> gcase ([w "case"] ++ ts ++ [y ":"] ++ ts') (e, b)
with gclause : list jtok -> bool * list jstmt -> Prop :=
| g_in_braces ts b : gblock ts b -> gclause ts (true, b)
| g_plain ts b : many gstmt ts b -> gclause ts (false, b).

Definition gparam (ts : list jtok) (p : str * ttype) : Prop :=
  is_ident (fst p) /\ exists ts', gtype 1 ts' (snd p) /\ ts = [JWord (fst p); y ":"] ++ ts'.
Inductive gfn : list jtok -> jfn -> Prop :=
| g_fn (exported : bool) name lines tp params tr ret ts body : is_ident name -> commas gparam tp params -> gtype 1 tr ret -> gblock ts body ->
    gfn ((if exported then [w "export"] else []) ++ [w "function"; JWord name; y "("] ++ tp ++ [y ")"; y ":"] ++ tr ++ ts)
      (JFn exported name lines params ret body).
(** The type [never] is that of a choice without cases; a union may start with [|]. *)
Inductive gdef : list jtok -> tdef -> Prop :=
| g_struct name ts fields : is_ident name -> separated gmember (y ";") ts fields ->
    gdef ([w "export"; w "type"; JWord name; y "="; y "{"] ++ ts ++ [y "}"; y ";"]) (TdStruct name fields)
| g_never name : is_ident name -> gdef [w "export"; w "type"; JWord name; y "="; w "never"; y ";"] (TdChoice name [])
| g_choice name ts cases : is_ident name -> chain (fun ts c => gtype 2 ts (TtObj c)) (y "|") ts cases ->
    gdef ([w "export"; w "type"; JWord name; y "="; y "|"] ++ ts ++ [y ";"]) (TdChoice name cases).
Definition gnamespace {A : Type} (G : list jtok -> A -> Prop) (ts : list jtok) (name : str) (a : A) : Prop :=
  is_ident name /\ exists ts', G ts' a /\ ts = [w "export"; w "namespace"; JWord name; y "{"] ++ ts' ++ [y "}"].
Definition gdecl (ts : list jtok) (d : tdecl) : Prop :=
  exists ts1 ts2, many gdef ts1 (td_types d) /\ gnamespace (many gfn) ts2 (td_name d) (td_fns d) /\ ts = ts1 ++ ts2.
Inductive gmod : list jtok -> tmod -> Prop :=
| g_mod ts children ts' decls :
    many (fun ts c => gnamespace gmod ts (fst c) (snd c)) ts children -> many gdecl ts' decls -> gmod (ts ++ ts') (TMod children decls).

(** A file: the type [Deserializable], which is the union of [alternatives]; functions; constants; and modules. *)
Definition gfile (ts : list jtok) (alternatives : list str) (fns : list jfn) (consts : list jstmt) (m : tmod) : Prop :=
  exists ta tf tc tm, chain gident (y "|") ta alternatives /\ many gfn tf fns /\ many gstmt tc consts /\ gmod tm m /\
    ts = [w "export"; w "type"; w "Deserializable"; y "="; y "|"] ++ ta ++ [y ";"] ++ tf ++ tc ++ tm.
