(** What is wrong with a file that is not a sequence of tokens, and how it is reported. A specification, independent of how
    the tokenizer works. *)
From Verif Require Export TokenSpec Located.

(** [misread u pal g i text rest e]: [text], at offset [i] and followed by [rest], is not a token, and [e] is what is said about
    it: where it is and the message. [g] gives the text of the grapheme cluster at an offset. *)
Inductive misread (u : unicode) (pal : palette) (g : N -> str) (i : N) : str -> str -> lexloc -> Prop :=
| misread_empty rest : not_followed_by (name_char u) rest ->
    misread u pal g i [36] rest (mkLexLoc LexEmptyIdent (mkRange i (i + 1)) (txt "Identifiers cannot be empty."))
| misread_underscore sigil name rest : sigil = [] \/ sigil = [36] -> Forall (name_char u) name ->
    not_followed_by (name_char u) rest ->
    misread u pal g i (sigil ++ 95 :: name) rest
      (mkLexLoc LexUnderscore (mkRange i (i + lenN (utf8_encode (sigil ++ 95 :: name)))) (txt "Identifiers cannot begin with `_`."))
| misread_integer digits n rest : digits <> [] -> decimal digits n -> 2 ^ 64 <= n ->
    not_followed_by (fun c => 48 <= c <= 57) rest ->
    misread u pal g i digits rest
      (mkLexLoc LexInteger (mkRange i (i + lenN digits))
         (txt "Integer " ++ code_str pal digits ++ txt " must be less than 2^64."))
| misread_path p : ~ In 39 p ->
    misread u pal g i (39 :: p) []
      (mkLexLoc LexPath (mkRange i (i + 1)) (txt "Path starting here must be terminated by a " ++ code_str pal [39] ++ txt "."))
| misread_symbol c rest : is_whitespace u c = false -> is_alphabetic u c = false -> ~ (48 <= c <= 57) ->
    ~ In c [58; 46; 61; 123; 91; 125; 93; 95; 36; 39; 35] ->
    misread u pal g i [c] rest (mkLexLoc LexSymbol (mkRange i i) (txt "Unexpected symbol " ++ code_str pal (g i) ++ txt ".")).

(** Everything that is wrong with a text that starts at offset [i], in order. *)
Inductive faults (u : unicode) (pal : palette) (g : N -> str) : N -> str -> list lexloc -> Prop :=
| faults_end i : faults u pal g i [] []
| faults_white i c s es : is_whitespace u c = true -> faults u pal g (i + lenN (utf8_char c)) s es -> faults u pal g i (c :: s) es
| faults_token i text v rest es : lexeme u text v rest -> faults u pal g (i + lenN (utf8_encode text)) rest es ->
    faults u pal g i (text ++ rest) es
| faults_misread i text rest e es : misread u pal g i text rest e -> faults u pal g (i + lenN (utf8_encode text)) rest es ->
    faults u pal g i (text ++ rest) (e :: es).
