(** Model of /repo/src/tokenizer.rs and /repo/src/token.rs. Definitions only.

    The Rust code iterates over [char_indices()] with one character of lookahead; the model recurses over the
    remaining characters together with the byte offset of the first of them. Error values keep only their
    kind (messages and listings, which include the grapheme computation of lines 355-379, are not modelled). *)
From Verif Require Export Identifier.

(** Byte length of a character and of a string. *)
Definition clen (c : N) : N := lenN (utf8_char c).
Definition blen (s : str) : N := lenN (utf8_encode s).

(** token.rs 34-60: [Variant]. *)
Inductive tvariant :=
| TkAs | TkAsymmetric | TkBool | TkBytes | TkChoice | TkColon | TkComment (paragraphs : list str) | TkDeleted
| TkDot | TkEquals | TkF64 | TkIdentifier (i : ident) | TkImport | TkInteger (n : N) | TkLeftCurly | TkLeftSquare
| TkOptional | TkPath (p : str) | TkRightCurly | TkRightSquare | TkS64 | TkString | TkStruct | TkU64 | TkUnit.
(** token.rs 28-32: [Token]; the range is in bytes, [tend] exclusive. *)
Record token := mkToken { tstart : N; tend : N; tvar : tvariant }.

Inductive lexerr := LexEmptyIdent | LexUnderscore | LexInteger | LexPath | LexSymbol.

(** The iterator idiom of tokenizer.rs 107-114, 219-226, 255-260: read while a predicate holds. *)
Fixpoint span (p : N -> bool) (l : str) : str * str :=
  match l with
  | [] => ([], [])
  | c :: l' => if p c then let (a, b) := span p l' in (c :: a, b) else ([], l)
  end.

(** tokenizer.rs 15-16, 104, 108. *)
Definition sigil : N := 36.
Definition ident_start (u : unicode) (c : N) : bool := is_alphabetic u c || (c =? underscore) || (c =? sigil).
Definition ident_continue (u : unicode) (c : N) : bool := is_alphanumeric u c || (c =? underscore).

(** tokenizer.rs 116-185, with the keywords of token.rs 10-23. *)
Definition keywords : list (str * tvariant) :=
  [(txt "as", TkAs); (txt "asymmetric", TkAsymmetric); (txt "Bool", TkBool); (txt "Bytes", TkBytes);
   (txt "choice", TkChoice); (txt "deleted", TkDeleted); (txt "F64", TkF64); (txt "import", TkImport);
   (txt "optional", TkOptional); (txt "S64", TkS64); (txt "String", TkString); (txt "struct", TkStruct);
   (txt "U64", TkU64); (txt "Unit", TkUnit)].
Fixpoint keyword_of (l : list (str * tvariant)) (s : str) : option tvariant :=
  match l with
  | [] => None
  | (k, v) :: l' => if str_eqb s k then Some v else keyword_of l' s
  end.
(** tokenizer.rs 187-210: the text of an identifier without the sigil, and the errors. *)
Definition strip_sigil (s : str) : str :=
  match s with c :: s' => if c =? sigil then s' else s | [] => [] end.
Definition ident_errors (name : str) : list lexerr :=
  match name with
  | [] => [LexEmptyIdent]
  | c :: _ => if c =? underscore then [LexUnderscore] else []
  end.

(** [str::parse::<usize>] on a string of ASCII digits; usize has 64 bits. *)
Definition dec_value (s : str) : N := fold_left (fun a d => a * 10 + (d - 48)) s 0.

(** [str::trim]. *)
Fixpoint trim_start (u : unicode) (s : str) : str :=
  match s with
  | [] => []
  | c :: s' => if is_whitespace u c then trim_start u s' else s
  end.
Definition trim (u : unicode) (s : str) : str := rev (trim_start u (rev (trim_start u s))).

(** tokenizer.rs 291-319: the lines of a comment; [inline] tells whether the iterator is inside a line ([cur]
    is what it has read of it) or after a line break, skipping blanks. Returns the lines (untrimmed),
    [line_end], and the offset and input after the comment. *)
Definition newline : N := 10.
Definition hash : N := 35.
Fixpoint read_comment (u : unicode) (off : N) (inline : bool) (cur : str) (line_end : N) (l : str)
  : list str * N * N * str :=
  match l with
  | [] => if inline then ([cur], off, off, []) else ([], line_end, off, [])
  | c :: l' =>
      if inline then
        if c =? newline then
          let '(ls, e, o, r) := read_comment u (off + clen c) false [] off l' in (cur :: ls, e, o, r)
        else read_comment u (off + clen c) true (cur ++ [c]) line_end l'
      else if is_whitespace u c && negb (c =? newline) then read_comment u (off + clen c) false [] line_end l'
      else if c =? hash then read_comment u (off + clen c) true [] line_end l'
      else ([], line_end, off, l)
  end.
(** tokenizer.rs 321-339: merging lines into paragraphs. *)
Definition space : N := 32.
Fixpoint merge_lines (paragraph : str) (lines : list str) : list str :=
  match lines with
  | [] => if is_nonempty paragraph then [paragraph] else []
  | line :: lines' =>
      if negb (is_nonempty line) && is_nonempty paragraph then paragraph :: merge_lines [] lines'
      else if is_nonempty line then
        merge_lines ((if is_nonempty paragraph then paragraph ++ [space] else paragraph) ++ line) lines'
      else merge_lines paragraph lines'
  end.
Definition paragraphs (u : unicode) (lines : list str) : list str := merge_lines [] (map (trim u) lines).

(** tokenizer.rs 38-99. *)
Definition symbol_of (c : N) : option tvariant :=
  if c =? 58 then Some TkColon
  else if c =? 46 then Some TkDot
  else if c =? 61 then Some TkEquals
  else if c =? 123 then Some TkLeftCurly
  else if c =? 91 then Some TkLeftSquare
  else if c =? 125 then Some TkRightCurly
  else if c =? 93 then Some TkRightSquare
  else None.

Definition quote : N := 39.
(** tokenizer.rs 35-379: one iteration of the loop, for the character [c] at offset [i]: the tokens and errors
    it pushes, and the offset and input that remain. *)
Definition lex_step (u : unicode) (i c : N) (rest : str) : list token * list lexerr * N * str :=
  match symbol_of c with
  | Some v => ([mkToken i (i + 1) v], [], i + 1, rest)
  | None =>
  if ident_start u c then
    let (more, rest') := span (ident_continue u) rest in
    let text := c :: more in
    let e := i + blen text in
    match keyword_of keywords text with
    | Some v => ([mkToken i e v], [], e, rest')
    | None =>
        let name := strip_sigil text in
        ([mkToken i e (TkIdentifier (ident_from u name))], ident_errors name, e, rest')
    end
  else if ascii_is_digit c then
    let (more, rest') := span ascii_is_digit rest in
    let text := c :: more in
    let e := i + blen text in
    if dec_value text <? two64 then ([mkToken i e (TkInteger (dec_value text))], [], e, rest')
    else ([], [LexInteger], e, rest')
  else if c =? quote then
    let (path, rest') := span (fun d => negb (d =? quote)) rest in
    match rest' with
    | [] => ([], [LexPath], i + 1 + blen path, [])
    | _ :: rest'' => ([mkToken i (i + 1 + blen path + 1) (TkPath path)], [], i + 1 + blen path + 1, rest'')
    end
  else if c =? hash then
    let '(lines, line_end, o, rest') := read_comment u (i + 1) true [] (i + 1) rest in
    ([mkToken i line_end (TkComment (paragraphs u lines))], [], o, rest')
  else if is_whitespace u c then ([], [], i + clen c, rest)
  else ([], [LexSymbol], i + clen c, rest)
  end.

(** tokenizer.rs 33: the loop. [None]: out of fuel. *)
Fixpoint lex (u : unicode) (fuel : nat) (i : N) (l : str) : option (list token * list lexerr) :=
  match l with
  | [] => Some ([], [])
  | c :: rest =>
      match fuel with
      | O => None
      | S fuel' =>
          let '(ts, es, i', rest') := lex_step u i c rest in
          match lex u fuel' i' rest' with
          | None => None
          | Some (ts', es') => Some (ts ++ ts', es ++ es')
          end
      end
  end.

(** tokenizer.rs 21-389: [tokenize]. *)
Inductive lexed_result := LexOk (ts : list token) | LexErr (es : list lexerr) | LexLoop.
Definition tokenize (u : unicode) (s : str) : lexed_result :=
  match lex u (length s) 0 s with
  | None => LexLoop
  | Some (ts, []) => LexOk ts
  | Some (_, es) => LexErr es
  end.
