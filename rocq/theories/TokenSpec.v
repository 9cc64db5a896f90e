(** What the tokens of a schema file are. A specification, independent of how the tokenizer works. *)
From Verif Require Export Tokenizer IdentSpec.

(** Facts about Unicode, beyond ASCII, that are used: white space is not alphabetic. *)
Definition white_not_alphabetic (u : unicode) : Prop :=
  forall c, is_whitespace u c = true -> is_alphabetic u c = false.

(** The value of a string of decimal digits. *)
Inductive decimal : str -> N -> Prop :=
| decimal_nil : decimal [] 0
| decimal_snoc s n d : decimal s n -> d < 10 -> decimal (s ++ [48 + d]) (10 * n + d).

(** Letters (of any script), digits, underscores. *)
Definition name_char (u : unicode) (c : N) : Prop := is_alphanumeric u c = true \/ c = 95.
Definition not_followed_by (p : N -> Prop) (rest : str) : Prop :=
  match rest with [] => True | c :: _ => ~ p c end.

Definition symbols : list (N * tvariant) :=
  [(58, TkColon); (46, TkDot); (61, TkEquals); (123, TkLeftCurly); (91, TkLeftSquare); (125, TkRightCurly);
   (93, TkRightSquare)].
Definition reserved : list (str * tvariant) :=
  [(txt "as", TkAs); (txt "asymmetric", TkAsymmetric); (txt "Bool", TkBool); (txt "Bytes", TkBytes);
   (txt "choice", TkChoice); (txt "deleted", TkDeleted); (txt "F64", TkF64); (txt "import", TkImport);
   (txt "optional", TkOptional); (txt "S64", TkS64); (txt "String", TkString); (txt "struct", TkStruct);
   (txt "U64", TkU64); (txt "Unit", TkUnit)].

(** Blanks within a line. *)
Definition blank (u : unicode) (s : str) : Prop := Forall (fun c => is_whitespace u c = true /\ c <> 10) s.
Definition no_newline (s : str) : Prop := ~ In 10 s.
(** The lines of a comment, and its text after the first [#]: consecutive lines that start with [#]. *)
Inductive comment_body (u : unicode) : list str -> str -> Prop :=
| body_last l : no_newline l -> comment_body u [l] l
| body_more l ws ls t : no_newline l -> blank u ws -> comment_body u ls t ->
    comment_body u (l :: ls) (l ++ 10 :: ws ++ 35 :: t).
(** It ends at the end of the file or of the line, and the next line does not start with [#]. *)
Definition comment_ends (u : unicode) (rest : str) : Prop :=
  rest = [] \/ exists rest', rest = 10 :: rest' /\ forall ws r, blank u ws -> rest' <> ws ++ 35 :: r.

(** Removing white space at both ends. *)
Definition whites (u : unicode) (s : str) : Prop := Forall (fun c => is_whitespace u c = true) s.
Definition trimmed (u : unicode) (s t : str) : Prop :=
  exists a b, s = a ++ t ++ b /\ whites u a /\ whites u b /\
    (t = [] \/ (is_whitespace u (hd 0 t) = false /\ is_whitespace u (last t 0) = false)).
(** Blocks of consecutive non-empty lines. *)
Inductive blocks : list str -> list (list str) -> Prop :=
| blocks_nil : blocks [] []
| blocks_empty_line ls bs : blocks ls bs -> blocks ([] :: ls) bs
| blocks_block b ls bs : b <> [] -> Forall (fun l => l <> []) b -> (ls = [] \/ exists ls', ls = [] :: ls') ->
    blocks ls bs -> blocks (b ++ ls) (b :: bs).
(** The paragraphs of a comment: the blocks of its trimmed lines, the lines of a block separated by spaces. *)
Definition comment_paragraphs (u : unicode) (lines ps : list str) : Prop :=
  exists tls bs, Forall2 (trimmed u) lines tls /\ blocks tls bs /\ ps = map (separated 32) bs.

(** [lexeme u text v rest]: [text], followed by [rest], is the token [v]. *)
Inductive lexeme (u : unicode) : str -> tvariant -> str -> Prop :=
| lexeme_symbol c v rest : In (c, v) symbols -> lexeme u [c] v rest
| lexeme_keyword k v rest : In (k, v) reserved -> not_followed_by (name_char u) rest -> lexeme u k v rest
| lexeme_ident c name rest :
    is_alphabetic u c = true -> Forall (name_char u) name -> not_followed_by (name_char u) rest ->
    (forall v, ~ In (c :: name, v) reserved) ->
    lexeme u (c :: name) (TkIdentifier (ident_from u (c :: name))) rest
| lexeme_raw_ident name rest :
    name <> [] -> hd 0 name <> 95 -> Forall (name_char u) name -> not_followed_by (name_char u) rest ->
    lexeme u (36 :: name) (TkIdentifier (ident_from u name)) rest
| lexeme_integer digits n rest :
    digits <> [] -> decimal digits n -> n < 2 ^ 64 -> not_followed_by (fun c => 48 <= c <= 57) rest ->
    lexeme u digits (TkInteger n) rest
| lexeme_path p rest : ~ In 39 p -> lexeme u (39 :: p ++ [39]) (TkPath p) rest
| lexeme_comment lines body ps rest :
    comment_body u lines body -> comment_paragraphs u lines ps -> comment_ends u rest ->
    lexeme u (35 :: body) (TkComment ps) rest.

(** Tokens separated by any amount of white space, with their byte ranges. *)
Inductive lexed (u : unicode) : N -> str -> list token -> Prop :=
| lexed_end i : lexed u i [] []
| lexed_white i c s ts : is_whitespace u c = true -> lexed u (i + lenN (utf8_char c)) s ts -> lexed u i (c :: s) ts
| lexed_token i text v rest ts :
    lexeme u text v rest -> lexed u (i + lenN (utf8_encode text)) rest ts ->
    lexed u i (text ++ rest) (mkToken i (i + lenN (utf8_encode text)) v :: ts).
