(** Property theorems about formatting: C38, C39. See MANIFEST.json. [u] stands for Rust's Unicode tables, [stem] for
    the file name of a path without its extension, [wrap] for the lines made by the textwrap library. *)
From Verif Require Import TokenFacts2 ParserFacts2 PrinterFacts2.

(** C38: a formatted schema parses, and everything but the layout of comments is the same. *)
Theorem formatting_preserves_structure : forall u stem wrap text ts s,
  ascii_agrees u -> white_not_alphabetic u -> makes_lines wrap ->
  tokenize u text = LexOk ts -> parse u stem ts = ParseOk s -> printable_schema u stem s ->
  exists ts' s', tokenize u (print_schema u stem wrap s) = LexOk ts' /\ parse u stem ts' = ParseOk s' /\
    same_schema (fun _ _ => True) s s'.
Proof.
  intros u stem wrap text ts s Hu Hw Hl Ht Hp Hs.
  destruct (format_parses u stem wrap text ts s Hu Hw Hl Ht Hp Hs) as (ts' & H1 & H2).
  exists ts', (schema_again u stem wrap s). split; [exact H1|]. split; [exact H2|].
  apply schema_again_same; [exact Hu|exact Hs|]. split; [exact I|]. apply Forall_forall. intros d _. split; [exact I|].
  now apply Forall_forall.
Qed.
Print Assumptions formatting_preserves_structure.
(** Comments are the same too, if they are wrapped by breaking them at single spaces. *)
Theorem formatting_preserves_schema : forall u stem wrap text ts s,
  ascii_agrees u -> white_not_alphabetic u -> makes_lines wrap ->
  tokenize u text = LexOk ts -> parse u stem ts = ParseOk s -> printable_schema u stem s ->
  comments_wrap_cleanly u wrap s ->
  exists ts' s', tokenize u (print_schema u stem wrap s) = LexOk ts' /\ parse u stem ts' = ParseOk s' /\
    same_schema (fun a b => b = a) s s'.
Proof.
  intros u stem wrap text ts s Hu Hw Hl Ht Hp Hs Hc.
  destruct (format_parses u stem wrap text ts s Hu Hw Hl Ht Hp Hs) as (ts' & H1 & H2).
  exists ts', (schema_again u stem wrap s). split; [exact H1|]. split; [exact H2|].
  apply schema_again_same; [exact Hu|exact Hs|]. now apply clean_kept.
Qed.
Print Assumptions formatting_preserves_schema.
(** A schema whose formatted text does not parse: a field written [$choice]. *)
Theorem formatting_raw_identifier_refuted :
  let text := txt "struct Foo { $choice = 0 }" in
  exists ts s, tokenize ascii_unicode text = LexOk ts /\
    forall stem wrap, makes_lines wrap -> exists ts' es,
      parse ascii_unicode stem ts = ParseOk s /\
      tokenize ascii_unicode (print_schema ascii_unicode stem wrap s) = LexOk ts' /\
      parse ascii_unicode stem ts' = ParseErr es.
Proof.
  cbv zeta. do 2 eexists. split; [vm_compute; reflexivity|]. intros stem wrap _. do 2 eexists. split; [vm_compute; reflexivity|].
  split; vm_compute; reflexivity.
Qed.
Print Assumptions formatting_raw_identifier_refuted.
(** A type whose name formats to a keyword, and a type whose name formats to that of another one. *)
Theorem formatting_type_name_refuted :
  let text := txt "struct bool {}" in
  exists ts s, tokenize ascii_unicode text = LexOk ts /\
    forall stem wrap, makes_lines wrap -> exists ts' es,
      parse ascii_unicode stem ts = ParseOk s /\
      tokenize ascii_unicode (print_schema ascii_unicode stem wrap s) = LexOk ts' /\
      parse ascii_unicode stem ts' = ParseErr es.
Proof.
  cbv zeta. do 2 eexists. split; [vm_compute; reflexivity|]. intros stem wrap _. do 2 eexists. split; [vm_compute; reflexivity|].
  split; vm_compute; reflexivity.
Qed.
Print Assumptions formatting_type_name_refuted.
Theorem formatting_merges_names_refuted :
  let text := txt "struct foo_1 {} struct foo1 {}" in
  exists ts s n1 n2, tokenize ascii_unicode text = LexOk ts /\ map sd_name (ss_decls s) = [n1; n2] /\ ~ same_name n1 n2 /\
    forall stem wrap, makes_lines wrap -> exists ts' s' n,
      parse ascii_unicode stem ts = ParseOk s /\
      tokenize ascii_unicode (print_schema ascii_unicode stem wrap s) = LexOk ts' /\
      parse ascii_unicode stem ts' = ParseOk s' /\ map sd_name (ss_decls s') = [n; n].
Proof.
  cbv zeta. eexists. exists (mkSSchema [] []
    [mkSDecl [] SkStruct (ident_from ascii_unicode (txt "foo_1")) [] []; mkSDecl [] SkStruct (ident_from ascii_unicode (txt "foo1")) [] []]).
  do 2 eexists. split; [vm_compute; reflexivity|]. split; [reflexivity|]. split; [vm_compute; discriminate|].
  intros stem wrap _. do 3 eexists. split; [vm_compute; reflexivity|]. split; [vm_compute; reflexivity|].
  split; vm_compute; reflexivity.
Qed.
Print Assumptions formatting_merges_names_refuted.

(** C39: formatting a formatted schema changes nothing. *)
Theorem formatting_is_idempotent : forall u stem wrap text ts s ts' s',
  ascii_agrees u -> white_not_alphabetic u -> makes_lines wrap ->
  tokenize u text = LexOk ts -> parse u stem ts = ParseOk s -> printable_schema u stem s ->
  comments_wrap_cleanly u wrap s ->
  tokenize u (print_schema u stem wrap s) = LexOk ts' -> parse u stem ts' = ParseOk s' ->
  print_schema u stem wrap s' = print_schema u stem wrap s.
Proof.
  intros u stem wrap text ts s ts' s' Hu Hw Hl Ht Hp Hs Hc Ht' Hp'.
  destruct (format_parses u stem wrap text ts s Hu Hw Hl Ht Hp Hs) as (ts2 & H1 & H2).
  assert (s' = schema_again u stem wrap s) as -> by congruence.
  apply schema_twice; [exact Hu|exact Hs|]. now apply clean_kept.
Qed.
Print Assumptions formatting_is_idempotent.
