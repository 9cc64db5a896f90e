(** Property theorems about the text of the generated TypeScript file (C82). *)
From Verif Require Import BaseFacts IdentFacts NamesFacts CodeFacts.
From Verif Require Export TsGrammarFacts7.
Local Open Scope string_scope.
Local Open Scope list_scope.
Local Open Scope N_scope.

(** The comments at the top of the file. *)
Definition ts_header (version : str) : str :=
  txt "// This file was automatically generated by Typical " ++ version ++ txt "." ++ nl ++
  txt "// Visit https://github.com/stepchowfun/typical for more information." ++ nl ++ nl ++
  txt "/* eslint-disable */" ++ nl ++ nl.
(** C82: the generated file is the comments at the top followed by text which, cut into tokens and read by the grammar of
    TypeScript (TsGrammar.v), is the type of what can be deserialized, the functions and constants of the constant part and
    the program, whose runs the other properties are about (C68 to C73). *)
Theorem ts_text_reads_as_the_program : forall u version schemas code, accepted u schemas -> legal_ts_names u schemas ->
  ts_code u version schemas = Some code -> code <> [] ->
  exists body, code = ts_header version ++ body /\
    gfile (tokens body)
      (map txt ["ArrayBuffer"; "DataView"; "Int8Array"; "Uint8Array"; "Uint8ClampedArray"; "Int16Array"; "Uint16Array"; "Int32Array";
                "Uint32Array"; "Float32Array"; "Float64Array"; "BigInt64Array"; "BigUint64Array"])
      prelude_fns prelude_consts (ts_program u schemas).
Proof.
  intros u version schemas code Ha Hn Hc Hne. exists (ts_body u schemas). split; [|exact (body_file u schemas Ha Hn)].
  unfold ts_code in Hc. destruct (module_panics _ _); [discriminate|].
  assert (code = ts_prelude_text version ++ nl ++ tmod_str 0 (ts_program u schemas)) as ->.
  { clear - Hc Hne. revert Hc. generalize (ts_prelude_text version ++ nl ++ tmod_str 0 (ts_program u schemas)). intros text Hc.
    destruct (module_children (module_tree schemas)), (ss_decls (module_schema (module_tree schemas))); congruence. }
  unfold ts_prelude_text, ts_header, ts_body. generalize deserializable (join_with nl (map (jfn_str 0) prelude_fns)) (body_str 0 prelude_consts) (tmod_str 0 (ts_program u schemas)).
  intros a b c d. rewrite <- !app_assoc. reflexivity.
Qed.
Print Assumptions ts_text_reads_as_the_program.

(** When the names are identifiers: names in schemas start with a letter. *)
Theorem usual_ts_names_are_legal : forall u schemas, accepted u schemas ->
  (forall ns s k, In (ns, s) schemas -> In k ns -> starts_with_letter (original k)) ->
  (forall ns s d, In (ns, s) schemas -> In d (ss_decls s) -> starts_with_letter (original (sd_name d))) ->
  (forall ns s d f, In (ns, s) schemas -> In d (ss_decls s) -> In f (sd_fields d) -> starts_with_letter (original (sf_name f))) ->
  legal_ts_names u schemas.
Proof.
  intros u schemas Ha Hm Hd Hf ns s Hin. pose proof (ac_unicode u schemas Ha) as Hu. destruct (ac_names u schemas Ha ns s Hin) as [(G1 & G2 & _) G3]. split.
  - intros k Hk. rewrite Forall_forall in G1. destruct (G1 k Hk) as (Ek & Ck & _). rewrite Ek. apply ts_name_legal; [exact Hu|exact Ck|]. now apply (Hm ns s).
  - intros d Hind. destruct (G2 d Hind) as (Ed & Cd & _). split.
    + intros x. rewrite Ed. apply ts_name_legal; [exact Hu|exact Cd|]. now apply (Hd ns s).
    + intros f Hinf. destruct (G3 d f Hind Hinf) as (Ef & Cf & _). rewrite Ef. apply ts_name_legal; [exact Hu|exact Cf|]. now apply (Hf ns s d).
Qed.
Print Assumptions usual_ts_names_are_legal.
