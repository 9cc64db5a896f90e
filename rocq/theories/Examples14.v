(** The hypotheses of Properties16 are met. *)
From Coq Require Import String.
From Verif Require Import ReportSpec ReportFacts LexErrSpec LocatedSpec LexErrFacts TokenFacts PlainFiles Examples1 Examples5 Examples6 Examples9 Properties16.
Open Scope N_scope. Open Scope list_scope.

(** ** A listing of a range over two lines; é takes two bytes *)
Definition broken : str := txt "struct Foo {" ++ nl ++ txt "    x: [String" ++ nl ++ txt "    ]] = 0" ++ nl ++ txt "}" ++ nl.
Definition broken_range := mkRange 20 33.
Example broken_good : good_range au broken broken_range.
Proof.
  exists (txt "struct Foo {" ++ nl ++ txt "    x: "), (txt "[String" ++ nl ++ txt "    ]"), (txt "] = 0" ++ nl ++ txt "}" ++ nl).
  split; [vm_compute; auto|]. right. split; [reflexivity|]. exists (txt "[String" ++ nl ++ txt "    "), 93, [].
  split; [reflexivity|]. split; [reflexivity|]. intros [].
Qed.
(** 9474 and 9482 are the bars, 8254 the overline. *)
Example broken_listing : listing au None broken broken_range = Some (
  txt "2 " ++ [9474] ++ txt "     x: [String" ++ nl ++ txt "  " ++ [9482] ++ txt "        " ++ repeat 8254 7 ++ nl ++
  txt "3 " ++ [9474] ++ txt "     ]] = 0" ++ nl ++ txt "        " ++ [8254]).
Proof. vm_compute. reflexivity. Qed.
(** With colours, without the marks. *)
Example broken_coloured : listing au (Some (fun c s => match c with Red => [60] ++ s ++ [62] | _ => s end)) broken broken_range = Some (
  txt "2 " ++ [9474] ++ txt "     x: <[String>" ++ nl ++ txt "3 " ++ [9474] ++ txt "     <]>] = 0").
Proof. vm_compute. reflexivity. Qed.

(** ** Lexical errors *)
Definition faulty : str := txt "struct _a { $: @ 18446744073709551616 } import 'x" ++ nl.
Definition faulty_errors : list lexloc := Eval vm_compute in match tokenize_loc au None (fun _ => txt "@") faulty with XLexErr es => es | _ => [] end.
Example faulty_fails : tokenize_loc au None (fun _ => txt "@") faulty = XLexErr faulty_errors.
Proof. vm_compute. reflexivity. Qed.
Example faulty_messages : map xl_message faulty_errors =
  [txt "Identifiers cannot begin with `_`."; txt "Identifiers cannot be empty."; txt "Unexpected symbol `@`.";
   txt "Integer `18446744073709551616` must be less than 2^64."; txt "Path starting here must be terminated by a `'`."].
Proof. vm_compute. reflexivity. Qed.
Example faulty_ranges : map xl_range faulty_errors = [mkRange 7 9; mkRange 12 13; mkRange 15 15; mkRange 17 37; mkRange 47 48].
Proof. vm_compute. reflexivity. Qed.
Example faulty_faults : faults au None (fun _ => txt "@") 0 faulty faulty_errors.
Proof. apply (lexical_errors_are_the_faults au None (fun _ => txt "@") faulty); [apply ascii_tables_sane|apply ascii_tables_sane|exact faulty_fails]. Qed.

(** ** Syntax errors: the first advice is followed *)
Definition unfinished : str := txt "import 'a.t'" ++ nl ++ txt "struct Foo {" ++ nl ++ txt "    x: = 0" ++ nl ++ txt "} struct Bar { deleted 3 3" ++ nl ++ txt "}" ++ nl ++ txt "choice".
Definition unfinished_tokens : list token := Eval vm_compute in match tokenize au unfinished with LexOk ts => ts | _ => [] end.
Definition unfinished_errors : list ploc := Eval vm_compute in match parse_loc au plain_stem None unfinished_tokens with XParseErr es => es | _ => [] end.
Example unfinished_fails : tokenize au unfinished = LexOk unfinished_tokens /\ parse_loc au plain_stem None unfinished_tokens = XParseErr unfinished_errors.
Proof. split; vm_compute; reflexivity. Qed.
Example unfinished_messages : map xp_message unfinished_errors =
  [txt "Expected a type, but encountered `=`."; txt "Index `3` is already marked as deleted."; txt "Expected a name for the choice at the end of the file."].
Proof. vm_compute. reflexivity. Qed.
Example unfinished_kinds : map xp_kind unfinished_errors = [PeUnexpected; PeDuplicateDeleted; PeUnexpected].
Proof. vm_compute. reflexivity. Qed.
Example unfinished_complaints : Forall (complaint au plain_stem None unfinished_tokens) unfinished_errors.
Proof. apply Forall_forall. intros e. now apply (syntax_errors_are_complaints au plain_stem None unfinished_tokens unfinished_errors). Qed.

(** ** The ranges of a schema *)
Definition located_tokens : list token := Eval vm_compute in match tokenize au (txt "import 'a.t' struct Foo { x: [a.B] = 0 }") with LexOk ts => ts | _ => [] end.
Definition located_schema : xschema := Eval vm_compute in match parse_loc au plain_stem None located_tokens with XParseOk s => s | _ => mkXSchema [] [] [] end.
Example located_parses : parse_loc au plain_stem None located_tokens = XParseOk located_schema.
Proof. vm_compute. reflexivity. Qed.
Example located_ranges : map (fun e => xi_range (snd e)) (xs_imports located_schema) = [mkRange 0 12] /\
  map xd_range (xs_decls located_schema) = [mkRange 13 40] /\
  map (fun f => (xf_range f, xf_type f)) (flat_map xd_fields (xs_decls located_schema)) =
    [(mkRange 26 38, XyArray (mkRange 29 34) (XyLeaf (mkRange 30 33) (SyCustom (Some (ident_from au (txt "a"))) (ident_from au (txt "B")))))].
Proof. vm_compute. auto. Qed.
