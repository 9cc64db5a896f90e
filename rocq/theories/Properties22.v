(** Property theorems about the types of the generated Rust file (C84). *)
From Verif Require Import CodeFacts CycleFacts RustLinkFacts RustTypingFacts RustTypingFacts4 RustTypingFacts5 RustTypingFacts6.
From Verif Require Export RustTyping.
Local Open Scope string_scope.
Local Open Scope list_scope.
Local Open Scope N_scope.

(** C84: the generated program follows the typing rules of Rust (RustTyping.v): every name that is used stands for something,
    every expression has a type, every call passes what the function takes, every [match] covers all cases, every field is
    given once, every [?] and [return] fits what the function returns, only places that are declared [mut] are changed, nothing
    is moved out of a reference or used after it has been moved, every [impl] of a trait has the functions of the trait, and nothing is declared twice. *)
Theorem generated_rust_is_well_typed : forall u schemas, accepted u schemas -> std_is_free u schemas -> well_typed (rust_program u schemas).
Proof. exact accepted_well_typed. Qed.
Print Assumptions generated_rust_is_well_typed.

(** No type of the generated program contains itself except through a pointer. *)
Theorem generated_rust_types_have_a_size : forall u schemas, accepted u schemas -> finite_types (rust_program u schemas).
Proof. exact finite_program. Qed.
Print Assumptions generated_rust_types_have_a_size.

(** What users rely on: there are types for every declaration, messages can be sized and written, read, and converted from
    what is written to what is read. *)
Definition implements_trait (prog : rmod) (id : tyid) (trait : string) : Prop :=
  exists children items fns, find_module (fst id) prog = Some (RMod children items) /\
    In (IImpl (Some (TyPath (repeat (txt "super") (length (fst id)) ++ [txt trait]))) (snd id) fns) items.
Theorem declared_types_implement_the_traits : forall u schemas, accepted u schemas -> forall ns s d, In (ns, s) schemas -> In d (ss_decls s) ->
  let id x := (mods u ns, rust_name u (sd_name d) Pascal (Some x)) in
  let prog := rust_program u schemas in
  (forall x, item_at prog (id x) <> None) /\
  implements_trait prog (id SOut) "Serialize" /\ implements_trait prog (id SIn) "Deserialize" /\ converts prog (KData (id SOut)) (KData (id SIn)).
Proof.
  intros u schemas Ha ns s d Hin Hd id prog. pose proof (ac_unicode u schemas Ha) as Hu. pose proof (ac_loaded u schemas Ha) as Hl.
  pose proof (ac_names u schemas Ha) as Hg. pose proof (valid_here u schemas Ha) as Hv.
  destruct (schema_module u Hu schemas Hl Hg ns s Hin) as (ch & E). split; [|split; [|split]].
  - intros x. pose proof (RustTypesFacts.decl_item u Hu schemas Hl Hv Hg ns s d x (conj Hin Hd)) as K. unfold id, prog. unfold type_name in K. rewrite K. discriminate.
  - unfold implements_trait. cbn [fst snd id]. exists ch. eexists. exists [gen_size_fn; gen_serialize_fn]. split; [exact E|]. apply in_flat_map. exists d. split; [exact Hd|].
    unfold gen_decl, id. cbv zeta. unfold mods. rewrite map_length. unfold type_name. do 3 right. now left.
  - unfold implements_trait. cbn [fst snd id]. exists ch. eexists. exists [gen_deserialize_fn]. split; [exact E|]. apply in_flat_map. exists d. split; [exact Hd|].
    unfold gen_decl, id. cbv zeta. unfold mods. rewrite map_length. unfold type_name. do 4 right. now left.
  - exact (decl_converts u Hu schemas Hl Hv Hg ns s d (conj Hin Hd)).
Qed.
Print Assumptions declared_types_implement_the_traits.
(** The condition about modules called [std] is needed: if there is a struct in a module that has a module [std] in it, the
    generated file does not compile, because [std::io::ErrorKind::UnexpectedEof] is looked for in that module. *)
Theorem no_types_beside_a_module_std : forall u schemas ns s d, accepted u schemas ->
  In (ns, s) schemas -> In d (ss_decls s) -> sd_kind d = SkStruct ->
  find_module (mods u ns ++ [txt "std"]) (rust_program u schemas) <> None -> ~ well_typed (rust_program u schemas).
Proof. intros u schemas ns s d Ha Hin Hd Hk H Hw. apply H. now apply (struct_beside_std u schemas Ha Hw ns s d). Qed.
Print Assumptions no_types_beside_a_module_std.
