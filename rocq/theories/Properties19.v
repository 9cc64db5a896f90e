(** Property theorems about the text of the generated Rust file (C81). *)
From Verif Require Import BaseFacts IdentFacts NamesFacts CodeFacts.
From Verif Require Export RustGrammarFacts6.
Local Open Scope string_scope.
Local Open Scope list_scope.
Local Open Scope N_scope.

(** C81: the generated file is the fixed text at the top followed by text which, cut into tokens and read by the grammar of
    Rust (RustGrammar.v), is the program whose runs the other properties are about (C61 to C65). *)
Theorem rust_text_reads_as_the_program : forall u version schemas code, accepted u schemas -> legal_names u schemas ->
  rust_code u version schemas = Some code -> code <> [] ->
  exists body, code = prelude_text version ++ nl ++ body /\ gmod (tokens body) (rust_program u schemas).
Proof.
  intros u version schemas code Ha Hn Hc Hne. exists (mod_str 0 (rust_program u schemas)). split; [|now apply program_reads].
  unfold rust_code in Hc. destruct (module_panics _ _); [discriminate|].
  destruct (module_children (module_tree schemas)), (ss_decls (module_schema (module_tree schemas))); injection Hc as <-; try reflexivity. now elim Hne.
Qed.
Print Assumptions rust_text_reads_as_the_program.

(** When the names are identifiers: names in schemas start with a letter, no file or directory is called like one of the
    words that cannot be identifiers, no field of a struct like a keyword, and no case of a choice is called [self]. *)
Theorem usual_names_are_legal : forall u schemas, accepted u schemas ->
  (forall ns s k, In (ns, s) schemas -> In k ns ->
     starts_with_letter (original k) /\ ~ In (snake_case k) (map txt ["crate"; "self"; "super"; "Self"])) ->
  (forall ns s d, In (ns, s) schemas -> In d (ss_decls s) -> starts_with_letter (original (sd_name d))) ->
  (forall ns s d f, In (ns, s) schemas -> In d (ss_decls s) -> In f (sd_fields d) -> starts_with_letter (original (sf_name f)) /\
     match sd_kind d with
     | SkStruct => ~ In (snake_case (sf_name f)) RUST_KEYWORDS
     | SkChoice => ~ In (pascal_case u (sf_name f)) (map txt ["crate"; "self"; "super"; "Self"])
     end) ->
  legal_names u schemas.
Proof.
  intros u schemas Ha Hm Hd Hf ns s Hin. pose proof (ac_unicode u schemas Ha) as Hu. destruct (ac_names u schemas Ha ns s Hin) as [(G1 & G2 & _) G3]. split.
  - intros k Hk. destruct (Hm ns s k Hin Hk) as [H1 H2]. rewrite Forall_forall in G1. destruct (G1 k Hk) as (Ek & Ck & _).
    rewrite Ek. apply rust_name_legal; [exact Hu|exact Ck|exact H1|]. cbn [with_suffix in_case]. now rewrite <- Ek.
  - intros d Hind. destruct (G2 d Hind) as (Ed & Cd & _). split.
    + intros x. rewrite Ed. apply rust_name_legal; [exact Hu|exact Cd|exact (Hd ns s d Hin Hind)|].
      apply (suffixed_not_in u Hu (original (sd_name d)) x rust_not_raw []); [exact Cd|]. now destruct x.
    + intros f Hinf. destruct (Hf ns s d f Hin Hind Hinf) as [H1 H2]. destruct (G3 d f Hind Hinf) as (Ef & Cf & _). destruct (sd_kind d).
      * rewrite Ef in H2 |- *. split; [apply rust_name_legal; [exact Hu|exact Cf|exact H1|]|apply rust_local_legal; [exact Hu|exact Cf|exact H1|exact H2]].
        intros Hraw. apply H2. cbn [with_suffix in_case] in Hraw. revert Hraw. generalize (snake_case (ident_from u (original (sf_name f)))). intros w0 [<-|[<-|[<-|[<-|[]]]]]; apply existsb_In; reflexivity.
      * rewrite Ef. apply rust_name_legal; [exact Hu|exact Cf|exact H1|]. cbn [with_suffix in_case]. now rewrite <- Ef.
Qed.
Print Assumptions usual_names_are_legal.
