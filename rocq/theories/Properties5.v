(** Property theorems about tokens and the parser: C34, C35, C45, C46. See MANIFEST.json. [u] stands for Rust's Unicode
    tables, [stem] for the file name of a path without its extension. *)
From Verif Require Import TokenFacts2 ParserFacts2.

(** C45: tokenizing accepts exactly the texts that are a sequence of lexemes separated by white space, and
    returns those lexemes, with their ranges. *)
Theorem tokenizer_is_exact : forall u s ts, ascii_agrees u -> white_not_alphabetic u ->
  (tokenize u s = LexOk ts <-> lexed u 0 s ts).
Proof. intros u s ts Hu Hw. now apply tokenize_iff. Qed.
Print Assumptions tokenizer_is_exact.
Theorem tokenizer_terminates : forall u s, ascii_agrees u -> white_not_alphabetic u -> tokenize u s <> LexLoop.
Proof. intros u s Hu Hw. now apply tokenize_total. Qed.
Print Assumptions tokenizer_terminates.
Theorem token_ranges : forall u s ts, ascii_agrees u -> white_not_alphabetic u -> tokenize u s = LexOk ts ->
  ForallOrdPairs (fun a b => tend a <= tstart b) ts /\
  Forall (fun t => tstart t < tend t /\ tend t <= lenN (utf8_encode s)) ts /\
  forall t, In t ts -> exists pre text post, s = pre ++ text ++ post /\
    tstart t = lenN (utf8_encode pre) /\ tend t = lenN (utf8_encode (pre ++ text)) /\ lexeme u text (tvar t) post.
Proof.
  intros u s ts Hu Hw H. apply (tokenize_iff u Hu Hw) in H. destruct (lexed_ordered u 0 s ts H) as [H1 H2].
  split; [exact H1|]. split; [exact H2|]. intros t Ht.
  destruct (lexed_pieces u 0 s ts H t Ht) as (pre & text & post & E & H3 & H4 & H5). exists pre, text, post.
  split; [exact E|]. split; [exact H3|]. split; [|exact H5]. fold (blen (pre ++ text)). rewrite blen_app. exact H4.
Qed.
Print Assumptions token_ranges.
Theorem integer_literals : forall u digits n, ascii_agrees u -> white_not_alphabetic u ->
  digits <> [] -> decimal digits n ->
  tokenize u digits =
    if n <? 2 ^ 64 then LexOk [mkToken 0 (lenN digits) (TkInteger n)] else LexErr [LexInteger].
Proof. intros u digits n Hu Hw. now apply integer_literal. Qed.
Print Assumptions integer_literals.

(** C46: identifier tokens. *)
Theorem identifier_tokens : forall u s ts t i, ascii_agrees u -> white_not_alphabetic u ->
  tokenize u s = LexOk ts -> In t ts -> tvar t = TkIdentifier i ->
  exists name, i = ident_from u name /\ name <> [] /\ hd 0 name <> 95 /\
    Forall (fun c => is_alphabetic u c = true \/ is_alphanumeric u c = true \/ c = 95) name /\
    (is_alphabetic u (hd 0 name) = true \/ exists pre post, s = pre ++ 36 :: name ++ post).
Proof. intros u s ts t i Hu Hw. now apply ident_token. Qed.
Print Assumptions identifier_tokens.
(** An identifier that begins with a digit (README: "must start with a letter"). *)
Theorem identifier_starts_with_letter_refuted :
  tokenize ascii_unicode (txt "$1") = LexOk [mkToken 0 2 (TkIdentifier (ident_from ascii_unicode (txt "1")))].
Proof. reflexivity. Qed.
Print Assumptions identifier_starts_with_letter_refuted.

(** C35: the parser accepts exactly the token sequences of the grammar, and returns the tree they stand for. *)
Theorem parser_is_exact : forall u stem tokens s,
  parse u stem tokens = ParseOk s <-> schema_grammar u stem s tokens.
Proof. exact parse_iff. Qed.
Print Assumptions parser_is_exact.
Theorem parser_terminates : forall u stem tokens, parse u stem tokens <> ParseLoop.
Proof. exact parse_never_loops. Qed.
Print Assumptions parser_terminates.
(** So a token sequence stands for at most one tree. *)
Theorem grammar_unambiguous : forall u stem tokens s1 s2,
  schema_grammar u stem s1 tokens -> schema_grammar u stem s2 tokens -> s1 = s2.
Proof. intros u stem ts s1 s2 H1 H2. apply parse_iff in H1, H2. congruence. Qed.
Print Assumptions grammar_unambiguous.

(** C34: the parser panics at most if the last token is a comment after something else, and it does whenever that is the
    only thing wrong. *)
Theorem parser_panics_only_on_dangling_comment : forall u stem tokens, parse u stem tokens = ParsePanic ->
  exists pre t ps, tokens = pre ++ [t] /\ pre <> [] /\ tvar t = TkComment ps.
Proof. exact parse_panic_only. Qed.
Print Assumptions parser_panics_only_on_dangling_comment.
Theorem parser_panics_on_dangling_comment : forall u stem pre s t ps,
  parse u stem pre = ParseOk s -> pre <> [] -> tvar t = TkComment ps -> parse u stem (pre ++ [t]) = ParsePanic.
Proof. exact parse_panic_if. Qed.
Print Assumptions parser_panics_on_dangling_comment.
(** A source file on which the program crashes. *)
Theorem parser_does_not_panic_refuted :
  let text := txt "struct Foo {}" ++ [10; 10] ++ txt "# The end." in
  exists ts, tokenize ascii_unicode text = LexOk ts /\ forall stem, parse ascii_unicode stem ts = ParsePanic.
Proof. cbv zeta. eexists. split; [vm_compute; reflexivity|]. intros stem. reflexivity. Qed.
Print Assumptions parser_does_not_panic_refuted.
