(** The hypotheses of Properties6 are met, and the printer computes what one expects. *)
From Verif Require Import TokenFacts2 ParserFacts2 PrinterFacts2 Examples5.

(** One that never breaks: the lines of a paragraph without line breaks. *)
Definition one_line (w : N) (p : str) : list str := [filter (fun c => negb (c =? 10)) p].
Example one_line_makes_lines : makes_lines one_line.
Proof.
  intros w p. constructor; [|constructor]. intros H. apply filter_In in H as [_ H]. discriminate.
Qed.

Definition messy_text : str :=
  txt "# A schema." ++ nl ++ txt "# In two lines." ++ nl ++ txt "#" ++ nl ++ txt "# And two paragraphs." ++ nl ++ nl ++
  txt "import 'third.t' as t3  import 'dir/other.t'" ++ nl ++
  txt "# About foo_bar." ++ nl ++
  txt "struct foo_bar { # First." ++ nl ++ txt "X: [u] = 0 optional theY: other.Bar=2 ok=1 deleted 4 3}" ++ nl ++
  txt "choice Empty{}".
Definition messy_schema : sschema :=
  mkSSchema [txt "A schema. In two lines."; txt "And two paragraphs."]
    [(id "other", mkSImport (txt "dir/other.t") None); (id "t3", mkSImport (txt "third.t") None)]
    [mkSDecl [txt "About foo_bar."] SkStruct (id "foo_bar")
       [mkSField [txt "First."] Required (id "X") (SyArray (SyCustom None (id "u"))) 0;
        mkSField [] Optional (id "theY") (SyCustom (Some (id "other")) (id "Bar")) 2;
        mkSField [] Required (id "ok") SyUnit 1] [3; 4];
     mkSDecl [] SkChoice (id "Empty") [] []].
Definition tidy_text : str :=
  txt "# A schema. In two lines." ++ nl ++ txt "#" ++ nl ++ txt "# And two paragraphs." ++ nl ++ nl ++
  txt "import 'dir/other.t'" ++ nl ++ txt "import 'third.t' as t3" ++ nl ++ nl ++
  txt "# About foo_bar." ++ nl ++ txt "struct FooBar {" ++ nl ++
  txt "    # First." ++ nl ++ txt "    x: [U] = 0" ++ nl ++ nl ++
  txt "    optional the_y: other.Bar = 2" ++ nl ++ txt "    ok = 1" ++ nl ++ nl ++ txt "    deleted 3 4" ++ nl ++ txt "}" ++ nl ++ nl ++
  txt "choice Empty {" ++ nl ++ txt "}" ++ nl.
Example messy_parses : exists ts, tokenize ascii_unicode messy_text = LexOk ts /\
  parse ascii_unicode sample_stem ts = ParseOk messy_schema.
Proof. eexists. split; vm_compute; reflexivity. Qed.
Example messy_formats : print_schema ascii_unicode sample_stem one_line messy_schema = tidy_text.
Proof. vm_compute. reflexivity. Qed.
Example messy_printable : printable_schema ascii_unicode sample_stem messy_schema.
Proof.
  assert (forall s, forallb (fun c => ascii_is_letter c || ascii_is_digit c || (c =? 95)) s = true -> ident_chars s) as Hc.
  { intros s H. apply Forall_forall. intros c Hin. rewrite forallb_forall in H. specialize (H c Hin). unfold underscore.
    destruct (ascii_is_letter c); [now left|]. destruct (ascii_is_digit c); [right; now left|]. right. right. lia. }
  assert (forall s l, existsb (str_eqb s) l = false -> ~ In s l) as Hn.
  { intros s l H Hin. rewrite (proj2 (NamesFacts.existsb_In s l) Hin) in H. discriminate. }
  assert (forall i, i = ident_from ascii_unicode (original i) ->
            forallb (fun c => ascii_is_letter c || ascii_is_digit c || (c =? 95)) (original i) = true ->
            starts_with_letter (original i) -> ascii_name ascii_unicode i) as Ha by (intros; split; auto).
  split.
  - constructor; [|constructor; [|constructor]].
    + right. exists (txt "other"). split; reflexivity.
    + left. split; [apply Ha; reflexivity|apply Hn; reflexivity].
  - constructor; [|constructor; [|constructor]]; (split; [split; [apply Ha; reflexivity|split; [reflexivity|apply Hn; reflexivity]]|]).
    + constructor; [|constructor; [|constructor; [|constructor]]]; (split; [split; [apply Ha; reflexivity|apply Hn; reflexivity]|]).
      * split; [|exact I]. split; [apply Ha; reflexivity|split; [reflexivity|apply Hn; reflexivity]].
      * split; [split; [apply Ha; reflexivity|split; [reflexivity|apply Hn; reflexivity]]|split; [apply Ha; reflexivity|apply Hn; reflexivity]].
      * exact I.
    + constructor.
Qed.
Lemma wraps_by_computing w p : let l := one_line w p in
  forallb (fun x => is_nonempty x && negb (ascii_is_white (hd 0 x)) && negb (ascii_is_white (last x 0))) l = true ->
  separated 32 l = p -> wraps_cleanly ascii_unicode one_line w p.
Proof.
  cbv zeta. intros H1 H2. split; [discriminate|]. split; [|exact H2]. apply Forall_forall. intros x Hx.
  rewrite forallb_forall in H1. specialize (H1 x Hx). rewrite !andb_true_iff, !negb_true_iff in H1. destruct H1 as [[A B] D].
  split; [now destruct x|]. split; assumption.
Qed.
Example messy_wraps_cleanly : comments_wrap_cleanly ascii_unicode one_line messy_schema.
Proof.
  split; [repeat (apply Forall_cons; [apply wraps_by_computing; reflexivity|]); apply Forall_nil|].
  constructor; [|constructor; [|constructor]]; (split; [repeat (apply Forall_cons; [apply wraps_by_computing; reflexivity|]); apply Forall_nil|]).
  - constructor; [|constructor; [|constructor; [|constructor]]]; cbn [sf_comment];
      repeat (apply Forall_cons; [apply wraps_by_computing; reflexivity|]); apply Forall_nil.
  - constructor.
Qed.
