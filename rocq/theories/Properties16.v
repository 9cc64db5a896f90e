(** Property theorems about the reporting of errors: C74 to C76. See MANIFEST.json. *)
From Coq Require Import String.
From Verif Require Import ReportSpec ReportFacts LexErrSpec LexErrFacts LocatedSpec LocatedFacts LocatedFacts2 LocatedFacts3 LocatedFacts4 LocatedFacts6 LocatedFacts7 PrinterFacts TokenFacts TokenFacts2 ParserFacts2.
Open Scope N_scope. Open Scope list_scope.

(** C74 *)
Theorem listings_show_the_range : forall u contents r, is_whitespace u 10 = true -> good_range u contents r ->
  exists text, listing u None contents r = Some text /\ lists u contents r text.
Proof. intros. now apply listing_lists. Qed.
Print Assumptions listings_show_the_range.
Theorem listings_do_not_panic : forall u pal contents r, is_whitespace u 10 = true -> good_range u contents r ->
  exists text, listing u pal contents r = Some text.
Proof. intros. now apply listing_total. Qed.
Print Assumptions listings_do_not_panic.
(** Every run of tokens of a file, so every part of a schema, has such a range. *)
Theorem token_ranges_are_listed : forall u contents ts before part after r, ascii_agrees u -> white_not_alphabetic u ->
  tokenize u contents = LexOk ts -> ts = before ++ part ++ after -> covers r part -> good_range u contents r.
Proof. intros u contents ts before part after r Hu Hw Ht E Hc. apply tokenize_iff in Ht; auto. now apply (covers_good u Hu Hw contents ts before part after). Qed.
Print Assumptions token_ranges_are_listed.
(** C74: but the range of an unexpected symbol is empty, and at the start of a line nothing is shown for it. *)
Theorem every_error_is_shown_refuted : exists contents e, tokenize_loc ascii_unicode None (fun _ => txt "@") contents = XLexErr [e] /\
  listing ascii_unicode None contents (xl_range e) = Some [].
Proof. exists (txt "@"). eexists. split; vm_compute; reflexivity. Qed.
Print Assumptions every_error_is_shown_refuted.
(** C74: and a range that ends in the white space before the text of a line makes [listing] panic; no such range is listed. *)
Theorem every_range_is_listed_refuted : exists contents r, r_start r <= r_end r /\ r_end r <= lenN (utf8_encode contents) /\ listing ascii_unicode None contents r = None.
Proof. exists (txt "a" ++ [10] ++ txt "  b"), (mkRange 0 3). repeat split; vm_compute; congruence. Qed.
Print Assumptions every_range_is_listed_refuted.

(** C75 *)
Theorem lexical_errors_are_the_faults : forall u pal grapheme contents es, ascii_agrees u -> white_not_alphabetic u ->
  tokenize_loc u pal grapheme contents = XLexErr es <-> faults u pal grapheme 0 contents es /\ es <> [].
Proof. intros. now apply tokenize_faults. Qed.
Print Assumptions lexical_errors_are_the_faults.
(** The errors are those of the tokenizer of C28 and the following properties. *)
Theorem lexical_errors_are_reported : forall u pal grapheme contents kinds, tokenize u contents = LexErr kinds <->
  exists es, tokenize_loc u pal grapheme contents = XLexErr es /\ kinds = map xl_kind es.
Proof.
  intros u pal g contents kinds. rewrite (tokenize_forget u pal g). destruct (tokenize_loc u pal g contents) as [ts|es|]; cbn [forget_lex].
  - split; [discriminate|]. intros (? & [=] & _).
  - split; [intros [= <-]; eauto|]. intros (es' & [= <-] & ->). reflexivity.
  - split; [discriminate|]. intros (? & [=] & _).
Qed.
Print Assumptions lexical_errors_are_reported.
Theorem lexical_errors_are_listed : forall u pal grapheme contents es e, ascii_agrees u -> white_not_alphabetic u ->
  tokenize_loc u pal grapheme contents = XLexErr es -> In e es -> good_range u contents (xl_range e).
Proof.
  intros u pal g contents es e Hu Hw E Hin. apply tokenize_faults in E as [E _]; auto.
  pose proof (fun a => faults_good u Hu pal g 0 contents es E a) as F; clear E; rename F into E. specialize (E [] eq_refl). rewrite Forall_forall in E. now apply E.
Qed.
Print Assumptions lexical_errors_are_listed.

(** C76 *)
Theorem syntax_errors_are_complaints : forall u stem pal ts es e, parse_loc u stem pal ts = XParseErr es -> In e es -> complaint u stem pal ts e.
Proof. intros u stem pal ts es e E Hin. apply parse_complaints in E as [E _]. rewrite Forall_forall in E. now apply E. Qed.
Print Assumptions syntax_errors_are_complaints.
Theorem syntax_errors_are_listed : forall u stem pal contents ts es e, ascii_agrees u -> white_not_alphabetic u ->
  tokenize u contents = LexOk ts -> parse_loc u stem pal ts = XParseErr es -> In e es -> good_range u contents (xp_range e).
Proof.
  intros u stem pal contents ts es e Hu Hw Ht E Hin. apply tokenize_iff in Ht; auto.
  apply (complaint_good u Hu Hw stem pal contents ts); [exact Ht|]. now apply (syntax_errors_are_complaints u stem pal ts es).
Qed.
Print Assumptions syntax_errors_are_listed.
(** The errors are those of the parser of C33 and the following properties. *)
Theorem syntax_errors_are_reported : forall u stem pal ts kinds, parse u stem ts = ParseErr kinds <->
  exists es, parse_loc u stem pal ts = XParseErr es /\ kinds = map xp_kind es.
Proof.
  intros u stem pal ts kinds. rewrite (parse_forget u stem pal ts). destruct (parse_loc u stem pal ts) as [s|es| |]; cbn [forget_parse].
  2: { split; [intros [= <-]; eauto|]. intros (es' & [= <-] & ->). reflexivity. }
  all: split; [discriminate|]; intros (? & [=] & _).
Qed.
Print Assumptions syntax_errors_are_reported.
(** The first complaint, if it is about a token or the end of the file, is right: the text before it can be continued with the
    token that is expected, to a text that is a schema. *)
Theorem advice_can_be_followed : forall u stem pal contents ts e es, ascii_agrees u -> white_not_alphabetic u ->
  tokenize u contents = LexOk ts -> parse_loc u stem pal ts = XParseErr (e :: es) -> xp_kind e = PeUnexpected ->
  exists before after expected v text rest, contents = before ++ after /\ r_start (xp_range e) = lenN (utf8_encode before) /\
    expects pal expected v /\
    (xp_message e = txt "Expected " ++ expected ++ txt " at the end of the file." \/
     exists t, In t ts /\ tstart t = lenN (utf8_encode before) /\
       xp_message e = txt "Expected " ++ expected ++ txt ", but encountered " ++ code_str pal (token_text (tvar t)) ++ txt ".") /\
    lexeme u text v rest /\
    exists ts' s, tokenize u (before ++ [10; 10] ++ text ++ rest) = LexOk ts' /\ parse u stem ts' = ParseOk s.
Proof.
  intros u stem pal contents ts e es Hu Hw Ht E Hk. apply tokenize_iff in Ht; auto.
  destruct (advice u Hu stem pal contents ts e es Ht E Hk) as (a & b & what & v & text & rest & s & H1 & H2 & H3 & H4 & H5 & ts' & H6 & H7).
  exists a, b, what, v, text, rest. repeat (split; [assumption|]). exists ts', s. split; [now apply tokenize_iff|now apply parse_iff].
Qed.
Print Assumptions advice_can_be_followed.
(** A token is shown in messages as it is written in the file, apart from zeros in front of a number and the [$] in front of a
    name; a comment is shown as a comment with the same paragraphs. *)
Theorem messages_show_tokens_as_written : forall u text v rest, ascii_agrees u -> lexeme u text v rest ->
  match v with
  | TkInteger n => decimal (token_text v) n /\ (token_text v = txt "0" \/ (token_text v <> [] /\ forall s, token_text v <> 48 :: s))
  | TkIdentifier _ => text = token_text v \/ text = txt "$" ++ token_text v
  | TkComment [] => token_text v = []
  | TkComment ps => exists lines body, token_text v = txt "#" ++ body ++ [10] /\ comment_body u lines body /\ comment_paragraphs u lines ps
  | _ => token_text v = text
  end.
Proof.
  intros u text v rest Hu H. destruct H as [c v rest H|k v rest H Hr|c name rest H1 H2 H3 H4|name rest H1 H2 H3 H4|digits n rest H1 H2 H3 H4|p rest H|lines body ps rest H1 H2 H3].
  - unfold symbols in H. cbn in H. repeat (destruct H as [[= <- <-]|H]; [reflexivity|]). contradiction.
  - unfold reserved in H. cbn in H. repeat (destruct H as [[= <- <-]|H]; [reflexivity|]). contradiction.
  - now left.
  - now right.
  - cbn [token_text]. split; [apply (number_decimal (fun _ => None))|]. destruct (N.eq_dec n 0) as [->|E]; [now left|]. right.
    split; [apply (number_decimal (fun _ => None))|apply number_numeral; lia].
  - reflexivity.
  - pose proof (paragraphs_proper u lines ps (body_lines u lines body H1) H2) as Hp. destruct ps as [|p ps]; [reflexivity|].
    apply comment_text_reads; [|exact Hp]. now rewrite (agrees_white u Hu).
Qed.
Print Assumptions messages_show_tokens_as_written.
(** The ranges in the tree are those of the text it was made from. *)
Theorem parts_are_where_they_are : forall u stem pal ts s, parse_loc u stem pal ts = XParseOk s -> schema_at u stem s ts.
Proof. intros. now apply (parse_is_at u stem pal). Qed.
Print Assumptions parts_are_where_they_are.
Theorem located_schemas_are_schemas : forall u stem pal ts s, parse u stem ts = ParseOk s <->
  exists xs, parse_loc u stem pal ts = XParseOk xs /\ s = bare_schema xs.
Proof.
  intros u stem pal ts s. rewrite (parse_forget u stem pal ts). destruct (parse_loc u stem pal ts) as [xs|es| |]; cbn [forget_parse].
  1: { split; [intros [= <-]; eauto|]. intros (xs' & [= <-] & ->). reflexivity. }
  all: split; [discriminate|]; intros (? & [=] & _).
Qed.
Print Assumptions located_schemas_are_schemas.
