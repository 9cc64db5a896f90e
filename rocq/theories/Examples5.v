(** The hypotheses of Properties5 are met, and the models compute what one expects. *)
From Verif Require Import TokenFacts2 ParserFacts2.

Example ascii_tables_sane : ascii_agrees ascii_unicode /\ white_not_alphabetic ascii_unicode.
Proof. split; [constructor; intros; reflexivity|apply ascii_white_not_alphabetic]. Qed.

Definition nl : str := [10].
Definition sample_text : str :=
  txt "# A schema." ++ nl ++ nl ++
  txt "import 'dir/other.t'" ++ nl ++
  txt "import 'third.t' as t3" ++ nl ++ nl ++
  txt "# About  Foo," ++ nl ++ txt "  #  in two lines." ++ nl ++ txt "#" ++ nl ++ txt "# Second paragraph." ++ nl ++
  txt "struct Foo {" ++ nl ++
  txt "  x: [U64] = 0" ++ nl ++
  txt "  optional theY: other.Bar = 2 # comments are tokens" ++ nl ++
  txt "  $choice = 1" ++ nl ++
  txt "  deleted 4 3" ++ nl ++
  txt "}" ++ nl ++
  txt "choice Empty {}".
Definition sample_stem (p : str) : option str :=
  if str_eqb p (txt "dir/other.t") then Some (txt "other") else if str_eqb p (txt "third.t") then Some (txt "third") else None.
Definition id s := ident_from ascii_unicode (txt s).
Definition sample_schema : sschema :=
  mkSSchema [txt "A schema."]
    [(id "other", mkSImport (txt "dir/other.t") None); (id "t3", mkSImport (txt "third.t") None)]
    [mkSDecl [txt "About  Foo, in two lines."; txt "Second paragraph."] SkStruct (id "Foo")
       [mkSField [] Required (id "x") (SyArray SyU64) 0;
        mkSField [] Optional (id "theY") (SyCustom (Some (id "other")) (id "Bar")) 2;
        mkSField [txt "comments are tokens"] Required (id "choice") SyUnit 1] [3; 4];
     mkSDecl [] SkChoice (id "Empty") [] []].
Example sample_parses : exists ts, tokenize ascii_unicode sample_text = LexOk ts /\
  parse ascii_unicode sample_stem ts = ParseOk sample_schema.
Proof. eexists. split; vm_compute; reflexivity. Qed.
Example sample_is_in_the_grammar : exists ts, lexed ascii_unicode 0 sample_text ts /\
  schema_grammar ascii_unicode sample_stem sample_schema ts.
Proof.
  destruct sample_parses as (ts & H1 & H2). exists ts. split; [|now apply parse_iff].
  apply tokenize_iff in H1; [exact H1|apply ascii_tables_sane..].
Qed.
Example largest_integer : decimal (txt "18446744073709551615") (2 ^ 64 - 1).
Proof.
  change (2 ^ 64 - 1) with (dec_value (txt "18446744073709551615")). apply value_decimal, Forall_forall. intros c Hc.
  cbn in Hc. repeat (destruct Hc as [<-|Hc]; [reflexivity|]). destruct Hc.
Qed.
(** A leading comment directly above a declaration belongs to the declaration. *)
Example first_comment :
  exists ts, tokenize ascii_unicode (txt "# c" ++ nl ++ txt "struct A {}") = LexOk ts /\
  parse ascii_unicode sample_stem ts = ParseOk (mkSSchema [] [] [mkSDecl [txt "c"] SkStruct (id "A") [] []]).
Proof. eexists. split; vm_compute; reflexivity. Qed.
