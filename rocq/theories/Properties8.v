(** Property theorems about modules and names in generated code: C43, C44, C57, C58. See MANIFEST.json. *)
From Verif Require Import NamesFacts CodeFacts CycleFacts Properties7.

(** C43: a relative namespace, followed from where it is used, leads to the namespace it stands for ... *)
Theorem relative_namespace_resolves : forall target here path ups, relativize_namespace target here = (path, ups) ->
  (ups <= length here)%nat /\ same_ns (walk here ups path) target.
Proof. intros a b path ups E. pose proof (relativize_resolves a b) as H. now rewrite E in H. Qed.
Print Assumptions relative_namespace_resolves.
(** ... and no other way goes up less often, or down. *)
Theorem relative_namespace_is_shortest : forall target here path ups path' ups',
  relativize_namespace target here = (path, ups) -> (ups' <= length here)%nat -> same_ns (walk here ups' path') target ->
  (ups <= ups')%nat /\ (length path <= length path')%nat.
Proof. intros a b path ups path' ups' E H1 H2. pose proof (relativize_shortest a b path' ups' H1 H2) as H. now rewrite E in H. Qed.
Print Assumptions relative_namespace_is_shortest.

(** C44: each schema is in the tree, at its namespace ... *)
Theorem module_tree_contains_schemas : forall schemas ns s,
  ForallOrdPairs (fun a b => ~ same_ns (fst a) (fst b)) schemas -> Forall (fun e => text_namespace (fst e)) schemas ->
  In (ns, s) schemas -> exists here, same_ns ns here /\ holds (module_tree schemas) here s /\
    forall here' s', same_ns here here' -> holds (module_tree schemas) here' s' -> here' = here /\ s' = s.
Proof.
  intros schemas ns s H1 H2 Hin. destruct (module_tree_spec schemas H1 H2) as (K1 & K2 & _). destruct (K2 ns s Hin) as (here & A & B).
  exists here. split; [exact A|]. split; [exact B|]. intros here' s' Hs Hh. now apply (holds_unique _ K1 here' s' here s Hh B (same_ns_sym _ _ Hs)).
Qed.
Print Assumptions module_tree_contains_schemas.
(** ... and everything else in it is an empty module on the way to a schema. *)
Theorem module_tree_contains_nothing_else : forall schemas here s,
  ForallOrdPairs (fun a b => ~ same_ns (fst a) (fst b)) schemas -> Forall (fun e => text_namespace (fst e)) schemas ->
  holds (module_tree schemas) here s ->
  (exists ns, In (ns, s) schemas /\ same_ns ns here) \/
  (s = empty_schema /\ (here = [] \/ exists ns s', In (ns, s') schemas /\ above here ns) /\
   forall ns s', In (ns, s') schemas -> ~ same_ns ns here).
Proof. intros schemas here s H1 H2. destruct (module_tree_spec schemas H1 H2) as (_ & _ & K3). apply K3. Qed.
Print Assumptions module_tree_contains_nothing_else.

(** C57: paths to types in the generated Rust code lead to the type the reference in the schema means, and to no other. *)
Theorem rust_type_paths_resolve : forall u schemas ns s d f i n x, ascii_agrees u -> loaded schemas -> validate schemas = VOk ->
  (forall ns s, In (ns, s) schemas -> good_file u ns s) ->
  declared schemas ns s d -> In f (sd_fields d) -> mentions (sf_type f) i n ->
  let tree := module_tree schemas in
  exists here path ns2 s2 d2 there ns',
    same_ns ns here /\ holds tree here s /\ rust_path u s here i n x = Some path /\
    declared schemas ns2 s2 d2 /\ leads_to ns s i ns' /\ same_q (ns2, sd_name d2) (ns', n) /\
    same_ns ns2 there /\ holds tree there s2 /\ rust_resolves u tree here path there d2 x /\
    forall there' d' x', rust_resolves u tree here path there' d' x' -> there' = there /\ d' = d2 /\ x' = x.
Proof.
  intros u schemas ns s d f i n x Hu Hl Hv Hg Hd Hf Hm. cbv zeta. destruct (validation_is_sound schemas Hl Hv) as [HV _].
  now apply (rust_path_resolves u Hu schemas Hl HV Hg ns s d f i n x).
Qed.
Print Assumptions rust_type_paths_resolve.
(** The paths to what is defined at the top of the file lead there. *)
Theorem rust_top_paths_resolve : forall here item, rust_resolves_top item here (rust_top_path here item).
Proof. exact rust_top. Qed.
Print Assumptions rust_top_paths_resolve.
(** In TypeScript they do if, and only if, no module around the reference has in it a namespace called like the first
    segment. *)
Theorem ts_type_paths_resolve : forall u schemas ns s d f i n x, ascii_agrees u -> loaded schemas -> validate schemas = VOk ->
  (forall ns s, In (ns, s) schemas -> good_file u ns s) -> (forall ns s, In (ns, s) schemas -> ns <> []) ->
  declared schemas ns s d -> In f (sd_fields d) -> mentions (sf_type f) i n ->
  let tree := module_tree schemas in
  exists here first rest ns2 s2 d2 there ns',
    same_ns ns here /\ holds tree here s /\ ts_path u s here i n x = Some (first :: rest) /\
    declared schemas ns2 s2 d2 /\ leads_to ns s i ns' /\ same_q (ns2, sd_name d2) (ns', n) /\
    same_ns ns2 there /\ holds tree there s2 /\
    ((forall a b, here = a ++ b -> a <> [] -> ~ ts_has_namespace u tree a first) <->
     ts_resolves u tree here (first :: rest) there d2 x) /\
    (forall there' d' x', (x' = None <-> x = None) -> ts_resolves u tree here (first :: rest) there d2 x ->
       ts_resolves u tree here (first :: rest) there' d' x' -> there' = there /\ d' = d2 /\ x' = x).
Proof.
  intros u schemas ns s d f i n x Hu Hl Hv Hg Hne Hd Hf Hm. cbv zeta. destruct (validation_is_sound schemas Hl Hv) as [HV _].
  now apply (ts_path_resolves u Hu schemas Hl HV Hg ns s d f i n x Hne).
Qed.
Print Assumptions ts_type_paths_resolve.

(** Without the condition it is false. A file [foo.t] with a struct [Foo] and a struct [Bar] that has a [Foo]: the
    generated [Foo.FooIn] is looked up in the namespace of the functions of [Foo], where it is not. *)
Definition name_ascii (s : String.string) : ident := ident_from ascii_unicode (txt s).
Definition shadowed_decl := mkSDecl [] SkStruct (name_ascii "Bar")
  [mkSField [] Required (name_ascii "x") (SyCustom None (name_ascii "Foo")) 0] [].
Definition shadowed_file := mkSSchema [] [] [mkSDecl [] SkStruct (name_ascii "Foo") [] []; shadowed_decl].
Definition shadowed := [([name_ascii "foo"], shadowed_file)].
Theorem ts_type_paths_resolve_refuted :
  loaded shadowed /\ validate shadowed = VOk /\ (forall ns s, In (ns, s) shadowed -> good_file ascii_unicode ns s) /\
  let tree := module_tree shadowed in let here := [name_ascii "foo"] in
  holds tree here shadowed_file /\
  ts_path ascii_unicode shadowed_file here None (name_ascii "Foo") (Some SIn) = Some [txt "Foo"; txt "FooIn"] /\
  forall there d x, ~ ts_resolves ascii_unicode tree here [txt "Foo"; txt "FooIn"] there d x.
Proof.
  split; [|split; [vm_compute; reflexivity|split]].
  - split; [constructor; [constructor|constructor]|]. split.
    + intros ns s [[= <- <-]|[]]. split; constructor.
    + intros ns s d [[[= <- <-]|[]] [<-|[<-|[]]]]; constructor.
  - assert (forall s, ident_chars (txt s) -> words_start_with_letters (txt s) -> good_ident ascii_unicode (name_ascii s)) as K by (intros; now repeat split).
    intros ns s [[= <- <-]|[]]. split; [repeat constructor; repeat (try (left; reflexivity); try (right; left; reflexivity))|].
    split; [intros d [<-|[<-|[]]]; apply K; try reflexivity; repeat constructor|].
    split; [|intros k im ns' []].
    intros d f i n [<-|[<-|[]]] Hf Hm; [destruct Hf|]. destruct Hf as [<-|[]]. inversion Hm; subst. apply K; [repeat constructor|reflexivity].
  - cbv zeta. split; [vm_compute; eapply holds_below; [left; reflexivity|constructor]|]. split; [reflexivity|].
    intros there d x (first & rest & outer & inner & k & E1 & E2 & H1 & H2 & H3 & H4). injection E1 as <- <-.
    destruct outer as [|a [|b outer]]; [| |destruct outer; discriminate E2].
    + cbn in E2. subst inner. apply (H1 [name_ascii "foo"] []); [reflexivity|discriminate|]. right.
      exists shadowed_file, (mkSDecl [] SkStruct (name_ascii "Foo") [] []). split; [vm_compute; eapply holds_below; [left; reflexivity|constructor]|].
      split; [now left|reflexivity].
    + cbn [app] in E2. injection E2 as <- <-. destruct H3 as [s H3]. vm_compute in H3.
      inversion H3 as [|? ? ? ? ? ? Hin Hh]; subst. destruct Hin as [Hin|[]]. injection Hin as <-. inversion Hh as [|? ? ? ? ? ? Hin2 Hh2]; subst. destruct Hin2.
Qed.
Print Assumptions ts_type_paths_resolve_refuted.

(** C58: generated type names never capture a name that the generated code relies on ... *)
Theorem rust_type_names_capture_nothing : forall u s x, ascii_agrees u -> ident_chars s ->
  ~ In (rust_name u (ident_from u s) Pascal (Some x)) rust_relied_on.
Proof. intros u s x Hu. now apply rust_types_not_captured. Qed.
Print Assumptions rust_type_names_capture_nothing.
Theorem ts_type_names_capture_nothing : forall u s x, ascii_agrees u -> ident_chars s ->
  ~ In (ts_name u (ident_from u s) Pascal (Some x)) ts_relied_on.
Proof. intros u s x Hu. now apply ts_types_not_captured. Qed.
Print Assumptions ts_type_names_capture_nothing.
(** ... and local variables made from field names are different for different fields and legal, unless the field is
    called like a keyword. *)
Theorem rust_locals_distinct : forall u a b, ascii_agrees u -> good_ident u a -> good_ident u b ->
  rust_local u a = rust_local u b -> same_ident a b.
Proof. intros u a b Hu. now apply rust_local_inj. Qed.
Print Assumptions rust_locals_distinct.
Theorem rust_locals_legal : forall u s, ascii_agrees u -> ident_chars s -> starts_with_letter s ->
  (legal_rust_identifier (rust_local u (ident_from u s)) <-> ~ In (snake_case (ident_from u s)) RUST_KEYWORDS).
Proof. intros u s Hu. now apply rust_local_legal. Qed.
Print Assumptions rust_locals_legal.
Theorem rust_locals_legal_refuted :
  rust_local ascii_unicode (name_ascii "type") = txt "_r#type" /\ ~ legal_rust_identifier (txt "_r#type").
Proof.
  split; [reflexivity|]. change (txt "_r#type") with (rust_local ascii_unicode (name_ascii "type")). unfold name_ascii.
  rewrite (rust_local_legal ascii_unicode ltac:(constructor; intros; reflexivity)); [|repeat constructor|reflexivity].
  intros H. apply H. apply existsb_In. reflexivity.
Qed.
Print Assumptions rust_locals_legal_refuted.
(** Files and declarations can: a struct [DataView] makes the global object unreachable from the functions in its file,
    and a file [io.t] takes the name of an imported module. *)
Definition capturing := [([name_ascii "io"], mkSSchema [] [] [mkSDecl [] SkStruct (name_ascii "DataView") [] []])].
Theorem names_capture_nothing_refuted :
  loaded capturing /\ validate capturing = VOk /\ In (txt "DataView") ts_relied_on /\ In (txt "io") rust_relied_on /\
  ~ ts_reaches_global ascii_unicode (module_tree capturing) [name_ascii "io"] (txt "DataView") /\
  ~ rust_reaches ascii_unicode (module_tree capturing) (txt "io").
Proof.
  split; [|split; [vm_compute; reflexivity|]].
  - split; [constructor; [constructor|constructor]|]. split.
    + intros ns s [[= <- <-]|[]]. split; constructor.
    + intros ns s d [[[= <- <-]|[]] [<-|[]]]; constructor.
  - split; [apply existsb_In; reflexivity|]. split; [apply existsb_In; reflexivity|]. split.
    + intros H. apply (H [name_ascii "io"] []); [reflexivity|]. right.
      do 2 eexists. split; [vm_compute; eapply holds_below; [left; reflexivity|constructor]|]. split; [now left|reflexivity].
    + intros H. apply (H (name_ascii "io")); [|reflexivity]. eexists. vm_compute. eapply holds_below; [left; reflexivity|constructor].
Qed.
Print Assumptions names_capture_nothing_refuted.
