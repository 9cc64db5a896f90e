(** Model of /repo/src/tokenizer.rs and /repo/src/parser.rs with source ranges and error messages. Definitions only.

    Tokenizer.v and Parser.v model the same functions and leave these out; LocatedFacts.v shows that the models agree. *)
From Verif Require Export Report Parser.

Section Located.
Context (u : unicode) (pal : palette).
Let code := code_str pal.

(** ** tokenizer.rs *)
(** [grapheme i]: the text of the grapheme cluster, or of the rest of it, at offset [i] (tokenizer.rs 360-375; the crate
    [unicode_segmentation] is not modelled). *)
Context (grapheme : N -> str).
(** An error: its kind, the range whose listing is shown, and the message. *)
Record lexloc := mkLexLoc { xl_kind : lexerr; xl_range : srange; xl_message : str }.
(** tokenizer.rs 190-208. *)
Definition ident_errors_loc (name : str) (r : srange) : list lexloc :=
  match name with
  | [] => [mkLexLoc LexEmptyIdent r (txt "Identifiers cannot be empty.")]
  | c :: _ => if c =? underscore then [mkLexLoc LexUnderscore r (txt "Identifiers cannot begin with `_`.")] else []
  end.
(** tokenizer.rs 35-379: one iteration of the loop. *)
Definition lex_step_loc (i c : N) (rest : str) : list token * list lexloc * N * str :=
  match symbol_of c with
  | Some v => ([mkToken i (i + 1) v], [], i + 1, rest)
  | None =>
  if ident_start u c then
    let (more, rest') := span (ident_continue u) rest in
    let text := c :: more in
    let e := i + blen text in
    match keyword_of keywords text with
    | Some v => ([mkToken i e v], [], e, rest')
    | None =>
        let name := strip_sigil text in
        ([mkToken i e (TkIdentifier (ident_from u name))], ident_errors_loc name (mkRange i e), e, rest')
    end
  else if ascii_is_digit c then
    let (more, rest') := span ascii_is_digit rest in
    let text := c :: more in
    let e := i + blen text in
    if dec_value text <? two64 then ([mkToken i e (TkInteger (dec_value text))], [], e, rest')
    else ([], [mkLexLoc LexInteger (mkRange i e) (txt "Integer " ++ code text ++ txt " must be less than 2^64.")], e, rest')
  else if c =? quote then
    let (path, rest') := span (fun d => negb (d =? quote)) rest in
    match rest' with
    | [] => ([], [mkLexLoc LexPath (mkRange i (i + 1)) (txt "Path starting here must be terminated by a " ++ code [quote] ++ txt ".")],
             i + 1 + blen path, [])
    | _ :: rest'' => ([mkToken i (i + 1 + blen path + 1) (TkPath path)], [], i + 1 + blen path + 1, rest'')
    end
  else if c =? hash then
    let '(lines, line_end, o, rest') := read_comment u (i + 1) true [] (i + 1) rest in
    ([mkToken i line_end (TkComment (paragraphs u lines))], [], o, rest')
  else if is_whitespace u c then ([], [], i + clen c, rest)
  else ([], [mkLexLoc LexSymbol (mkRange i i) (txt "Unexpected symbol " ++ code (grapheme i) ++ txt ".")], i + clen c, rest)
  end.
(** tokenizer.rs 33: the loop. [None]: out of fuel. *)
Fixpoint lex_loc (fuel : nat) (i : N) (l : str) : option (list token * list lexloc) :=
  match l with
  | [] => Some ([], [])
  | c :: rest =>
      match fuel with
      | O => None
      | S fuel' =>
          let '(ts, es, i', rest') := lex_step_loc i c rest in
          match lex_loc fuel' i' rest' with
          | None => None
          | Some (ts', es') => Some (ts ++ ts', es ++ es')
          end
      end
  end.
(** tokenizer.rs 21-389: [tokenize]. *)
Inductive lexed_loc := XLexOk (ts : list token) | XLexErr (es : list lexloc) | XLexLoop.
Definition tokenize_loc (s : str) : lexed_loc :=
  match lex_loc (length s) 0 s with
  | None => XLexLoop
  | Some (ts, []) => XLexOk ts
  | Some (_, es) => XLexErr es
  end.
End Located.

(** ** token.rs *)
(** token.rs 71-83: a comment. *)
Fixpoint comment_text (first : bool) (ps : list str) : str :=
  match ps with
  | [] => []
  | q :: ps' => (if first then [] else [35; 10]) ++ [35; 32] ++ q ++ [10] ++ comment_text false ps'
  end.
(** token.rs 63-105: [Display for Variant]. *)
Definition token_text (v : tvariant) : str :=
  match v with
  | TkAs => txt "as" | TkAsymmetric => txt "asymmetric" | TkBool => txt "Bool" | TkBytes => txt "Bytes"
  | TkChoice => txt "choice" | TkColon => txt ":" | TkComment ps => comment_text true ps | TkDeleted => txt "deleted"
  | TkDot => txt "." | TkEquals => txt "=" | TkF64 => txt "F64" | TkIdentifier i => original i | TkImport => txt "import"
  | TkInteger n => print_number n | TkLeftCurly => txt "{" | TkLeftSquare => txt "[" | TkOptional => txt "optional"
  | TkPath q => quote :: q ++ [quote] | TkRightCurly => txt "}" | TkRightSquare => txt "]" | TkS64 => txt "S64"
  | TkString => txt "String" | TkStruct => txt "struct" | TkU64 => txt "U64" | TkUnit => txt "Unit"
  end.

(** ** schema.rs 18-98, with the source ranges *)
(** [Type]: an array, or another type. *)
Inductive xty := XyArray (r : srange) (t : xty) | XyLeaf (r : srange) (t : sty).
Record xfield := mkXField { xf_range : srange; xf_comment : list str; xf_rule : rule; xf_name : ident; xf_type : xty; xf_index : N }.
Record xdecl := mkXDecl {
  xd_range : srange; xd_comment : list str; xd_kind : skind; xd_name : ident; xd_fields : list xfield; xd_deleted : list N }.
Record ximport := mkXImport { xi_range : srange; xi_path : str; xi_namespace : option namespace }.
Record xschema := mkXSchema { xs_comment : list str; xs_imports : list (ident * ximport); xs_decls : list xdecl }.
(** Forgetting the ranges. *)
Fixpoint bare_type (t : xty) : sty := match t with XyArray _ t' => SyArray (bare_type t') | XyLeaf _ t' => t' end.
Definition bare_field (f : xfield) : sfield := mkSField (xf_comment f) (xf_rule f) (xf_name f) (bare_type (xf_type f)) (xf_index f).
Definition bare_decl (d : xdecl) : sdecl := mkSDecl (xd_comment d) (xd_kind d) (xd_name d) (map bare_field (xd_fields d)) (xd_deleted d).
Definition bare_import (i : ximport) : simport := mkSImport (xi_path i) (xi_namespace i).
Definition bare_named (e : ident * ximport) : ident * simport := (fst e, bare_import (snd e)).
Definition bare_schema (s : xschema) : sschema := mkSSchema (xs_comment s) (map bare_named (xs_imports s)) (map bare_decl (xs_decls s)).

(** ** parser.rs *)
Record ploc := mkPLoc { xp_kind : perr; xp_range : srange; xp_message : str }.
Inductive qres (A : Type) := QRet (a : A) (es : list ploc) (rest : list token) | QPanic | QLoop.
Arguments QRet {A} a es rest.
Arguments QPanic {A}.
Arguments QLoop {A}.
Definition qbind {A B} (r : qres A) (k : A -> list ploc -> list token -> qres B) : qres B :=
  match r with QRet a es rest => k a es rest | QPanic => QPanic | QLoop => QLoop end.
Definition qadd {A} (es : list ploc) (r : qres A) : qres A :=
  match r with QRet a es' rest => QRet a (es ++ es') rest | QPanic => QPanic | QLoop => QLoop end.

Section LocatedParser.
Context (u : unicode) (stem : str -> option str) (pal : palette).
Let code := code_str pal.
(** The tokens of the file; the functions get the remaining ones. *)
Context (tokens : list token).
(** The end of the last token, or 0. *)
Definition eof : N := last (map tend tokens) 0.
Definition total : N := lenN tokens.

(** parser.rs 17-28: [token_source_range]. *)
Definition range_at (l : list token) : srange := match l with [] => mkRange eof eof | t :: _ => mkRange (tstart t) (tend t) end.
(** parser.rs 33-49: [span_tokens], from the first of [l] to before the first of [r], which is a suffix of [l]. *)
Definition span_range (l r : list token) : srange :=
  match l with
  | [] => range_at l
  | t :: _ =>
      if (length l =? length r)%nat then mkRange (tstart t) (tstart t)
      else mkRange (tstart t) (last (map tend (firstn (length l - length r) l)) 0)
  end.
(** parser.rs 53-86: [unexpected_token]. *)
Definition unexpected (l : list token) (expectation : str) : ploc :=
  mkPLoc PeUnexpected (range_at l)
    (match tokens, l with
     | [], _ => txt "Expected " ++ expectation ++ txt ", but the file is empty."
     | _, [] => txt "Expected " ++ expectation ++ txt " at the end of the file."
     | _, t :: _ => txt "Expected " ++ expectation ++ txt ", but encountered " ++ code (token_text (tvar t)) ++ txt "."
     end).

(** parser.rs 91-137, 142-191: the macros. *)
Definition qconsume0 {A} (v : tvariant) (err : A) (l : list token) (k : list token -> qres A) : qres A :=
  if vis v l then k (tl l) else QRet err [unexpected l (code (token_text v))] l.
Definition qconsume_ident {A} (expectation : str) (err : A) (l : list token) (k : ident -> list token -> qres A) : qres A :=
  match l with
  | t :: l' => match tvar t with TkIdentifier i => k i l' | _ => QRet err [unexpected l expectation] l end
  | [] => QRet err [unexpected l expectation] l
  end.
Definition qconsume_integer {A} (expectation : str) (err : A) (l : list token) (k : N -> list token -> qres A) : qres A :=
  match l with
  | t :: l' => match tvar t with TkInteger n => k n l' | _ => QRet err [unexpected l expectation] l end
  | [] => QRet err [unexpected l expectation] l
  end.
Definition qconsume_path {A} (expectation : str) (err : A) (l : list token) (k : str -> list token -> qres A) : qres A :=
  match l with
  | t :: l' => match tvar t with TkPath q => k q l' | _ => QRet err [unexpected l expectation] l end
  | [] => QRet err [unexpected l expectation] l
  end.

(** parser.rs 704-863: [parse_type]. *)
Fixpoint qparse_type (l : list token) : qres (option xty) :=
  match l with
  | [] => QRet None [unexpected l (txt "a type")] l
  | t :: l' =>
      let leaf v := QRet (Some (XyLeaf (span_range l l') v)) [] l' in
      match tvar t with
      | TkLeftSquare =>
          qbind (qparse_type l') (fun inner es r =>
            match inner with
            | Some ty => qadd es (qconsume0 TkRightSquare None r (fun r' => QRet (Some (XyArray (span_range l r') ty)) [] r'))
            | None => QRet None es r
            end)
      | TkBool => leaf SyBool
      | TkBytes => leaf SyBytes
      | TkF64 => leaf SyF64
      | TkS64 => leaf SyS64
      | TkString => leaf SyString
      | TkU64 => leaf SyU64
      | TkUnit => leaf SyUnit
      | _ =>
          if total <? 2 then QPanic
          else if (total - lenN l <? total - 2) && vis TkDot l' then
            qconsume_ident (txt "the name of an import") None l (fun import r =>
              qconsume_ident (txt "a type") None (tl r) (fun name r' =>
                QRet (Some (XyLeaf (span_range l r') (SyCustom (Some import) name))) [] r'))
          else qconsume_ident (txt "a type") None l (fun name r => QRet (Some (XyLeaf (span_range l r) (SyCustom None name))) [] r)
      end
  end.

(** parser.rs 574-699: [parse_field]. *)
Definition qparse_field (l : list token) : qres (option xfield) :=
  let (comment, l1) := parse_comment l in
  let (r, l2) := parse_rule l1 in
  qconsume_ident (txt "a field") None l2 (fun name l3 =>
    let finish (ty : xty) (l4 : list token) :=
      qconsume0 TkEquals None l4 (fun l5 =>
        qconsume_integer (txt "an index for the field") None l5 (fun index l6 =>
          QRet (Some (mkXField (span_range l l6) comment r name ty index)) [] l6)) in
    if vis TkColon l3 then
      match tl l3 with
      | [] => QRet None [unexpected [] (txt "a type")] []
      | _ =>
          qbind (qparse_type (tl l3)) (fun ty es l4 =>
            match ty with
            | Some ty => qadd es (finish ty l4)
            | None => QRet None es l4
            end)
      end
    else finish (XyLeaf (span_range l3 l3) SyUnit) l3).

(** parser.rs 376-402: the fields of a declaration. *)
Fixpoint qparse_fields (fuel : nat) (l : list token) : qres (list xfield) :=
  match l with
  | [] => QRet [] [] l
  | _ =>
      if vis TkDeleted l || vis TkRightCurly l then QRet [] [] l
      else
        match fuel with
        | O => QLoop
        | S fuel' =>
            qbind (qparse_field l) (fun f es r =>
              match f with
              | Some f => qadd es (qbind (qparse_fields fuel' r) (fun fs es' r' => QRet (f :: fs) es' r'))
              | None => QRet [] es (skip_to_curly r)
              end)
        end
  end.
(** parser.rs 404-434: the indices after [deleted]. *)
Fixpoint qparse_deleted (acc : list N) (l : list token) : list N * list ploc * list token :=
  match l with
  | [] => (acc, [], l)
  | t :: l' =>
      match tvar t with
      | TkInteger n =>
          let (acc', dup) := set_insert n acc in
          let '(s, es, r) := qparse_deleted acc' l' in
          (s, (if dup then [mkPLoc PeDuplicateDeleted (range_at l)
                              (txt "Index " ++ code (token_text (tvar t)) ++ txt " is already marked as deleted.")] else []) ++ es, r)
      | _ => (acc, [], l)
      end
  end.

(** parser.rs 479-569: [parse_import]. *)
Definition qparse_import (l : list token) : qres (option (ident * ximport)) :=
  qconsume0 TkImport None l (fun l1 =>
    qconsume_path (txt "the path of a file to import") None l1 (fun path l2 =>
      if vis TkAs l2 then
        qconsume0 TkAs None l2 (fun l3 =>
          qconsume_ident (txt "a name for the import") None l3 (fun name l4 =>
            QRet (Some (name, mkXImport (span_range l l4) path None)) [] l4))
      else
        match stem path with
        | Some s => QRet (Some (ident_from u s, mkXImport (span_range l l2) path None)) [] l2
        | None => QRet (Some (ident_from u [65533], mkXImport (span_range l l2) path None))
                    [mkPLoc PeNoName (span_range l l2) (txt "Unable to infer a name for this import.")] l2
        end)).
(** parser.rs 271-297: the imports. *)
Fixpoint qparse_imports (fuel : nat) (m : list (ident * ximport)) (l : list token) : qres (list (ident * ximport)) :=
  if vis TkImport l then
    match fuel with
    | O => QLoop
    | S fuel' =>
        qbind (qparse_import l) (fun i es r =>
          match i with
          | Some (name, import) =>
              let (m', dup) := map_insert name import m in
              qadd (es ++ if dup then [mkPLoc PeDuplicateImport (xi_range import)
                                         (txt "An import named " ++ code (original name) ++ txt " already exists in this file.")] else [])
                (qparse_imports fuel' m' r)
          | None => qadd es (qparse_imports fuel' m r)
          end)
    end
  else QRet m [] l.

(** parser.rs 301-465: one declaration. [None]: the function returned early. *)
Definition qparse_decl (l : list token) : qres (option xdecl) :=
  let (comment, l1) := parse_comment l in
  match l1 with
  | [] => QPanic
  | t :: l2 =>
      let go kind what :=
        qconsume_ident (txt "a name for the " ++ what) None l2 (fun name l3 =>
          qconsume0 TkLeftCurly None l3 (fun l4 =>
            qbind (qparse_fields (length l4) l4) (fun fields es l5 =>
              let '(deleted, es', l6) :=
                if vis TkDeleted l5 then qparse_deleted [] (tl l5) else ([], [], l5) in
              qadd (es ++ es') (qconsume0 TkRightCurly None l6 (fun l7 =>
                QRet (Some (mkXDecl (span_range l l7) comment kind name fields deleted)) [] l7))))) in
      match tvar t with
      | TkStruct => go SkStruct (txt "struct")
      | TkChoice => go SkChoice (txt "choice")
      | _ => QRet None [unexpected l1 (txt "a declaration")] l1
      end
  end.
(** parser.rs 299-300: the loop. *)
Fixpoint qparse_decls (fuel : nat) (l : list token) : qres (list xdecl) :=
  match l with
  | [] => QRet [] [] l
  | _ =>
      match fuel with
      | O => QLoop
      | S fuel' =>
          qbind (qparse_decl l) (fun d es r =>
            match d with
            | Some d => qadd es (qbind (qparse_decls fuel' r) (fun ds es' r' => QRet (d :: ds) es' r'))
            | None => QRet [] es r
            end)
      end
  end.
(** parser.rs 234-474: [parse_schema]. *)
Definition qparse_schema : qres xschema :=
  let (comment, l1) := parse_schema_comment tokens in
  qbind (qparse_imports (length l1) [] l1) (fun imports es l2 =>
    qadd es (qbind (qparse_decls (length l2) l2) (fun decls es' l3 =>
      QRet (mkXSchema comment imports decls) es' l3))).
(** parser.rs 194-231: [parse]. *)
Inductive parsed_loc := XParseOk (s : xschema) | XParseErr (es : list ploc) | XParsePanic | XParseLoop.
Definition parse_loc : parsed_loc :=
  match qparse_schema with
  | QPanic => XParsePanic
  | QLoop => XParseLoop
  | QRet s [] [] => XParseOk s
  | QRet s [] (t :: l) => XParseErr [mkPLoc PeTrailing (range_at (t :: l)) (txt "Unexpected " ++ code (token_text (tvar t)) ++ txt ".")]
  | QRet s es _ => XParseErr es
  end.
End LocatedParser.
