(** Property theorems about loading schemas and about the commands: C40, C41, C42, C59. See MANIFEST.json. [fs] stands
    for the file system, [works] for which operations on it succeed, [u] for Rust's Unicode tables, [stem] for the file
    name of a path without its extension, [wrap] for the lines made by the textwrap library. *)
From Verif Require Import IdentFacts TsTop PrimExtra PlainFiles CommandFacts Properties1 Properties3 Properties7.


(** C41: loading always ends, whatever the imports. *)
Theorem loading_terminates : forall u stem fs, ascii_agrees u -> files_ok u fs -> load_schemas u stem fs <> LoadLoop.
Proof. intros u stem fs Hu Hfs. now apply load_terminates. Qed.
Print Assumptions loading_terminates.
(** What is loaded are files that are reached through imports, under their namespaces, each namespace once; ... *)
Theorem loaded_files_are_reached : forall u stem fs l, ascii_agrees u -> files_ok u fs -> load_schemas u stem fs = LoadOk l ->
  ForallOrdPairs (fun a b => ~ same_ns (fst a) (fst b)) l /\
  forall ns f, In (ns, f) l -> ns = namespace_of u (lf_path f) /\ reachable u stem fs (lf_path f) /\
    exists s, reads u stem fs (lf_path f) (lf_contents f) s /\ filled u fs (lf_path f) s (lf_schema f).
Proof.
  intros u stem fs l Hu Hfs E. split; [apply ns_lt_differ; now apply (load_sorted u stem fs Hu Hfs)|]. intros ns f Hin.
  destruct (loaded_in u stem fs Hu Hfs l ns f E Hin) as (A & B & s & C & _ & D). split; [exact A|]. split; [exact B|]. now exists s.
Qed.
Print Assumptions loaded_files_are_reached.
(** The namespace of a file: the names of the directories, and that of the file up to the last dot in it. *)
Theorem namespace_of_a_file : forall u dirs name extension, name <> [] -> ~ In 46 extension ->
  namespace_of u (dirs ++ [name ++ txt "." ++ extension]) = map (ident_from u) (dirs ++ [name]) \/
  name = txt "." /\ extension = [].
Proof.
  intros u dirs name ext Hn He.
  assert (before_last_dot (name ++ txt "." ++ ext) = Some name) as B.
  { assert (before_last_dot (txt "." ++ ext) = Some []) as B0.
    { cbn. assert (before_last_dot ext = None) as ->; [|reflexivity]. clear -He. induction ext as [|c e IH]; [reflexivity|]. cbn [before_last_dot].
      rewrite IH by (intros H; apply He; now right). destruct (N.eqb_spec c 46) as [->|]; [exfalso; apply He; now left|reflexivity]. }
    clear -B0. induction name as [|c n IH]; [exact B0|]. cbn [app before_last_dot]. now rewrite IH. }
  destruct (str_eqb (name ++ txt "." ++ ext) (txt "..")) eqn:D.
  - right. apply str_eqb_eq in D. destruct name as [|c [|c2 n]]; [congruence| |]; cbn in D; injection D; [|clear D; intros D ->; destruct n; discriminate].
    clear D; intros D ->. destruct ext; [now split|discriminate].
  - left. unfold namespace_of. induction dirs as [|d ds IH]; cbn [app path_to_namespace map].
    + unfold without_extension. rewrite D, B. destruct name as [|c n]; [congruence|]. reflexivity.
    + rewrite <- IH. now destruct (ds ++ [name ++ txt "." ++ ext]) eqn:E; [destruct ds|].
Qed.
Print Assumptions namespace_of_a_file.
(** ... every import of a loaded file leads to a loaded file; ... *)
Theorem loaded_imports_resolve : forall u stem fs l ns f k im, ascii_agrees u -> files_ok u fs -> load_schemas u stem fs = LoadOk l ->
  In (ns, f) l -> In (k, im) (ss_imports (lf_schema f)) ->
  exists ns', si_namespace im = Some ns' /\ exists ns2 f2, In (ns2, f2) l /\ same_ns ns' ns2.
Proof. intros u stem fs l ns f k im Hu Hfs. now apply loaded_import_resolves. Qed.
Print Assumptions loaded_imports_resolve.
(** ... and if different files have different namespaces, all files that are reached are loaded. *)
Theorem every_reached_file_is_loaded : forall u stem fs l p, ascii_agrees u -> files_ok u fs -> no_conflicts u stem fs ->
  load_schemas u stem fs = LoadOk l -> reachable u stem fs p -> exists f, In (namespace_of u p, f) l /\ lf_path f = p.
Proof. intros u stem fs l p Hu Hfs Hc E R. now apply (loaded_all u stem fs Hu Hfs l p). Qed.
Print Assumptions every_reached_file_is_loaded.
(** Loading succeeds if no file that is reached has a defect; ... *)
Theorem loading_succeeds : forall u stem fs, ascii_agrees u -> files_ok u fs -> fs_main fs <> None ->
  (forall p, reachable u stem fs p -> ~ panics u stem fs p /\ forall e, ~ file_defect u stem fs p e) ->
  exists l, load_schemas u stem fs = LoadOk l.
Proof. intros u stem fs Hu Hfs. now apply load_succeeds. Qed.
Print Assumptions loading_succeeds.
(** ... otherwise it fails with the defects, ... *)
Theorem loading_errors_are_defects : forall u stem fs es, ascii_agrees u -> files_ok u fs -> fs_main fs <> None ->
  load_schemas u stem fs = LoadErr es -> es <> [] /\ forall e, In e es -> exists p, reachable u stem fs p /\ file_defect u stem fs p e.
Proof. intros u stem fs es Hu Hfs Hm E. destruct (load_errors u stem fs Hu Hfs es E Hm) as (A & B & _). auto. Qed.
Print Assumptions loading_errors_are_defects.
(** ... all of them, if different files have different namespaces (C42) and the parser does not panic (C34). *)
Theorem loading_reports_every_defect : forall u stem fs, ascii_agrees u -> files_ok u fs -> no_conflicts u stem fs ->
  (forall p, reachable u stem fs p -> ~ panics u stem fs p) ->
  forall p e, reachable u stem fs p -> file_defect u stem fs p e -> exists es, load_schemas u stem fs = LoadErr es /\ In e es.
Proof.
  intros u stem fs Hu Hfs Hc Hp p e R D. assert (fs_main fs <> None) as Hm.
  { intros Em. clear -R Em. induction R as [n R|]; [congruence|assumption]. }
  destruct (load_schemas u stem fs) as [l|es| |] eqn:E.
  - exfalso. destruct (load_ok_spec u stem fs Hu Hfs l E) as (popped & visited & I).
    now apply (popped_fine u stem fs _ _ _ _ _ I (all_visited u stem fs _ _ _ _ I Hc p R) e).
  - exists es. split; [reflexivity|]. now apply (load_errors u stem fs Hu Hfs es E Hm) with p.
  - exfalso. apply (load_panic_iff u stem fs Hu Hfs Hc) in E as (q & Rq & Pq). now apply (Hp q).
  - exfalso. now apply (load_terminates u stem fs Hu Hfs).
Qed.
Print Assumptions loading_reports_every_defect.
Theorem loading_panics_iff : forall u stem fs, ascii_agrees u -> files_ok u fs -> no_conflicts u stem fs ->
  load_schemas u stem fs = LoadPanic <-> exists p, reachable u stem fs p /\ panics u stem fs p.
Proof. intros u stem fs Hu Hfs Hc. now apply load_panic_iff. Qed.
Print Assumptions loading_panics_iff.
(** What has been loaded meets the conditions of the theorems about validation (C30-C33, C56). *)
Theorem loading_prepares_validation : forall u stem fs l, ascii_agrees u -> files_ok u fs -> load_schemas u stem fs = LoadOk l ->
  loaded (schemas_of l).
Proof. intros u stem fs l Hu Hfs. now apply loaded_loaded. Qed.
Print Assumptions loading_prepares_validation.

(** C42: the error for two files with one namespace is never reported. *)
Theorem conflicts_are_never_reported : forall u stem fs es ns, ascii_agrees u -> files_ok u fs -> load_schemas u stem fs = LoadErr es ->
  ~ In (LConflict ns) es.
Proof.
  intros u stem fs es ns Hu Hfs E Hin. destruct (fs_main fs) as [m|] eqn:Em.
  - destruct (load_errors u stem fs Hu Hfs es E) as (_ & B & _); [congruence|]. destruct (B _ Hin) as (p & _ & D). inversion D.
  - unfold load_schemas in E. rewrite Em in E. injection E as <-. destruct Hin as [H|[]]. discriminate H.
Qed.
Print Assumptions conflicts_are_never_reported.
(** The second of two such files is not looked at, even if it cannot be parsed; ... *)
Theorem loading_checks_every_file_refuted : exists fs l p e, files_ok ascii_unicode fs /\
  load_schemas ascii_unicode plain_stem fs = LoadOk l /\ reachable ascii_unicode plain_stem fs p /\
  file_defect ascii_unicode plain_stem fs p e.
Proof.
  exists (plain_files (txt "main.t")
    [([txt "main.t"], txt "import 'fooBar.t' as a import 'foo_bar.t' as b"); ([txt "fooBar.t"], txt "struct X {}"); ([txt "foo_bar.t"], txt "struct {")]).
  eexists. exists [txt "foo_bar.t"]. eexists. split; [|split; [vm_compute; reflexivity|]].
  - apply plain_files_ok; [|text_ns]. repeat (apply Forall_cons; [split; [discriminate|text_ns]|]). apply Forall_nil.
  - split.
    + apply (reach_import _ _ _ [txt "main.t"]); [now constructor|]. eexists. eexists. exists (ident_from ascii_unicode (txt "b")), (mkSImport (txt "foo_bar.t") None).
      split; [split; [reflexivity|eexists; split; [vm_compute; reflexivity|vm_compute; reflexivity]]|]. split; [right; now left|reflexivity].
    + eapply fd_parse; [reflexivity|vm_compute; reflexivity|vm_compute; reflexivity].
Qed.
Print Assumptions loading_checks_every_file_refuted.
(** ... and its types are silently taken from the first one: here [b.X], imported from a file where it holds a string,
    stands for a type that holds a number. *)
Theorem imported_types_come_from_their_file_refuted : exists fs l contents s d f, files_ok ascii_unicode fs /\
  load_schemas ascii_unicode plain_stem fs = LoadOk l /\ validate (schemas_of l) = VOk /\
  fs_locate fs [] (txt "foo_bar.t") = At [txt "foo_bar.t"] /\
  reads ascii_unicode plain_stem fs [txt "foo_bar.t"] contents s /\ In d (ss_decls s) /\
  sd_name d = ident_from ascii_unicode (txt "X") /\ map sf_type (sd_fields d) = [SyString] /\
  In (namespace_of ascii_unicode [txt "main.t"], f) l /\
  In (ident_from ascii_unicode (txt "b"), mkSImport (txt "foo_bar.t") (Some (namespace_of ascii_unicode [txt "foo_bar.t"]))) (ss_imports (lf_schema f)) /\
  denotes (schemas_of l) (namespace_of ascii_unicode [txt "main.t"]) (lf_schema f)
    (SyCustom (Some (ident_from ascii_unicode (txt "b"))) (ident_from ascii_unicode (txt "X"))) (TStruct [mkF 0 Required TU64]).
Proof.
  exists (plain_files (txt "main.t")
    [([txt "main.t"], txt "import 'fooBar.t' as a import 'foo_bar.t' as b struct Y { y: b.X = 0 }");
     ([txt "fooBar.t"], txt "struct X { n: U64 = 0 }"); ([txt "foo_bar.t"], txt "struct X { s: String = 0 }")]).
  eexists. eexists. eexists. eexists. eexists. split; [|split; [vm_compute; reflexivity|]].
  - apply plain_files_ok; [|text_ns]. repeat (apply Forall_cons; [split; [discriminate|text_ns]|]). apply Forall_nil.
  - split; [vm_compute; reflexivity|]. split; [reflexivity|]. split; [split; [reflexivity|eexists; split; [vm_compute; reflexivity|vm_compute; reflexivity]]|].
    split; [now left|]. split; [reflexivity|]. split; [reflexivity|]. split; [right; now left|]. split; [right; now left|].
    eapply (dn_custom _ _ _ _ _ _ _ _ (mkSDecl [] SkStruct (ident_from ascii_unicode (txt "X")) [mkSField [] Required (ident_from ascii_unicode (txt "n")) SyU64 0] [])).
    + eapply leads_import; [right; now left|reflexivity|reflexivity].
    + split; [now left|now left].
    + split; [|reflexivity]. constructor; [reflexivity|constructor].
    + apply dnf_cons; [constructor|constructor].
Qed.
Print Assumptions imported_types_come_from_their_file_refuted.

(** C40 *)
Theorem check_writes_nothing : forall works u stem wrap fs, fst (format_schema works u stem wrap fs true) = [].
Proof.
  intros works u stem wrap fs. unfold format_schema. destruct (load_schemas u stem fs) as [l|es| |]; try reflexivity. now rewrite check_loop.
Qed.
Print Assumptions check_writes_nothing.
Theorem check_succeeds_iff_formatted : forall works u stem wrap fs l, load_schemas u stem fs = LoadOk l ->
  ((forall ns f, In (ns, f) l -> formatted u stem wrap f) /\ snd (format_schema works u stem wrap fs true) = Succeeded) \/
  ((exists ns f, In (ns, f) l /\ ~ formatted u stem wrap f) /\ snd (format_schema works u stem wrap fs true) = Failed).
Proof.
  intros works u stem wrap fs l E. unfold format_schema. rewrite E, check_loop. cbn [orb snd].
  destruct (forallb _ l) eqn:F; cbn [negb]; [left|right]; (split; [|reflexivity]).
  - rewrite forallb_forall in F. intros ns f Hin. apply formatted_iff. exact (F _ Hin).
  - induction l as [|[ns f] l IH]; [discriminate F|]. cbn [forallb snd] in F. apply andb_false_iff in F as [F|F].
    + exists ns, f. split; [now left|]. intros K. apply formatted_iff in K. congruence.
    + clear E. assert (exists ns f, In (ns, f) l /\ ~ formatted u stem wrap f) as (ns' & f' & A & B).
      { clear IH. induction l as [|[ns' f'] l IH]; [discriminate F|]. cbn [forallb snd] in F. apply andb_false_iff in F as [F|F].
        - exists ns', f'. split; [now left|]. intros K. apply formatted_iff in K. congruence.
        - destruct (IH F) as (a & b & A & B). exists a, b. split; [now right|exact B]. }
      exists ns', f'. split; [now right|exact B].
Qed.
Print Assumptions check_succeeds_iff_formatted.
(** Formatting writes exactly the files that are not formatted, in order, until an operation fails. *)
Theorem format_writes_the_unformatted : forall works u stem wrap fs l, load_schemas u stem fs = LoadOk l ->
  exists es tried ok, to_format u stem wrap l es /\ performs works [] es tried ok /\
    format_schema works u stem wrap fs false = (tried, if ok then Succeeded else Failed).
Proof.
  intros works u stem wrap fs l E. destruct (format_loop_spec works u stem wrap l) as (es & H1 & H2).
  destruct (H2 false []) as (tried & ok & H3 & H4). exists es, tried, ok. split; [exact H1|]. split; [exact H3|].
  unfold format_schema. now rewrite E.
Qed.
Print Assumptions format_writes_the_unformatted.
(** Without a failure, formatting makes [format --check] succeed, and a second run writes nothing. *)
Theorem format_then_check_succeeds : forall works works2 u stem wrap fs l es,
  ascii_agrees u -> white_not_alphabetic u -> makes_lines wrap -> files_ok u fs -> no_conflicts u stem fs ->
  load_schemas u stem fs = LoadOk l ->
  (forall ns f, In (ns, f) l -> printable_schema u stem (lf_schema f) /\ comments_wrap_cleanly u wrap (lf_schema f)) ->
  format_schema works u stem wrap fs false = (es, Succeeded) ->
  format_schema works2 u stem wrap (after fs es) true = ([], Succeeded) /\
  format_schema works2 u stem wrap (after fs es) false = ([], Succeeded).
Proof.
  intros works works2 u stem wrap fs l es Hu Hw Hl Hfs Hc E Hp F.
  assert (to_format u stem wrap l es) as Hes.
  { destruct (format_writes_the_unformatted works u stem wrap fs l E) as (es' & tried & ok & A & B & C). rewrite C in F. injection F as <- F.
    destruct ok; [|discriminate F]. apply performs_all in B. cbn [app] in B. now subst tried. }
  pose proof (format_then_check works2 u stem wrap fs Hu Hw Hl Hfs Hc l es E Hes Hp) as K. split; [exact K|].
  unfold format_schema in K |- *. destruct (load_schemas u stem (after fs es)) as [l'|es'| |]; try discriminate K.
  rewrite check_loop in K. cbn [orb] in K. injection K as K. destruct (forallb _ l') eqn:G; [|discriminate K]. clear -G.
  generalize false at 2. generalize (@nil effect). induction l' as [|[ns f] l' IH]; intros before any; [reflexivity|].
  cbn [forallb snd] in G. apply andb_true_iff in G as [G1 G2]. cbn [format_loop]. rewrite G1. cbn [negb andb]. now apply IH.
Qed.
Print Assumptions format_then_check_succeeds.
(** Generating: nothing is written or listed unless loading and validation succeed; ... *)
Theorem generate_does_nothing_on_errors : forall works u stem rust_code ts_code fs listing rust ts,
  (forall l, load_schemas u stem fs = LoadOk l -> validate (schemas_of l) <> VOk) ->
  fst (generate_code works u stem rust_code ts_code fs listing rust ts) = [] /\
  snd (generate_code works u stem rust_code ts_code fs listing rust ts) <> Succeeded.
Proof.
  intros works u stem rc tc fs listing rust ts H. unfold generate_code. destruct (load_schemas u stem fs) as [l|es| |]; try (split; [reflexivity|discriminate]).
  specialize (H l eq_refl). destruct (validate (schemas_of l)); try (split; [reflexivity|discriminate]). contradiction.
Qed.
Print Assumptions generate_does_nothing_on_errors.
Theorem format_does_nothing_on_errors : forall works u stem wrap fs check, (forall l, load_schemas u stem fs <> LoadOk l) ->
  fst (format_schema works u stem wrap fs check) = [] /\ snd (format_schema works u stem wrap fs check) <> Succeeded.
Proof.
  intros works u stem wrap fs check H. unfold format_schema. destruct (load_schemas u stem fs) as [l|es| |]; try (split; [reflexivity|discriminate]).
  now destruct (H l).
Qed.
Print Assumptions format_does_nothing_on_errors.
(** ... otherwise the paths are listed if asked for, then each output is written, until an operation fails. *)
Theorem generate_writes_the_outputs : forall works u stem rust_code ts_code fs listing rust ts l rust_text ts_text,
  load_schemas u stem fs = LoadOk l -> validate (schemas_of l) = VOk ->
  rust_code (schemas_of l) = Some rust_text -> ts_code (schemas_of l) = Some ts_text -> exists tried ok,
  performs works (if listing : bool then map (fun e => ListSchema (lf_path (snd e))) l else [])
    (output_effects rust rust_text ++ output_effects ts ts_text) tried ok /\
  generate_code works u stem rust_code ts_code fs listing rust ts = (tried, if ok then Succeeded else Failed).
Proof.
  intros works u stem rc tc fs listing rust ts l c1 c2 E V E1 E2. unfold generate_code. rewrite E, V, E1, E2.
  apply (emit_spec works). intros before. replace (output_effects ts c2) with (output_effects ts c2 ++ []) by apply app_nil_r.
  apply (emit_spec works). intros b. exists b, true. split; [constructor|reflexivity].
Qed.
Print Assumptions generate_writes_the_outputs.
(** What trying effects in order means: a prefix of them is tried, and only the last one tried can fail. *)
Theorem a_failure_ends_the_run : forall works before todo tried ok, performs works before todo tried ok ->
  exists don rest, todo = don ++ rest /\ tried = before ++ don /\ (ok = true -> rest = []) /\
    (ok = false -> exists pre e, don = pre ++ [e] /\ works (before ++ pre) e = false) /\
    forall pre e post, don = pre ++ e :: post -> post <> [] -> works (before ++ pre) e = true.
Proof. intros works before todo tried ok. apply performs_trace. Qed.
Print Assumptions a_failure_ends_the_run.

(** C59: after a successful run, every type declared in a file that is reached stands for one well-formed type tree, and
    its messages round-trip in both languages, which write the same bytes. *)
Theorem generated_types_round_trip : forall works u stem rust_code ts_code fs listing rust ts es p contents s d,
  ascii_agrees u -> files_ok u fs -> no_conflicts u stem fs ->
  generate_code works u stem rust_code ts_code fs listing rust ts = (es, Succeeded) ->
  reachable u stem fs p -> reads u stem fs p contents s -> In d (ss_decls s) ->
  exists l s' T, load_schemas u stem fs = LoadOk l /\ filled u fs p s s' /\ declared (schemas_of l) (namespace_of u p) s' d /\
    decl_denotes (schemas_of l) (namespace_of u p) s' d T /\
    (forall T', decl_denotes (schemas_of l) (namespace_of u p) s' d T' -> T' = T) /\ ty_wf T /\
    forall v bs, wt DOut v T -> serialize v T = Some bs ->
      (size v T < 2 ^ 60 -> deserialize isize_max T bs = Ok (to_in v T) []) /\
      (size v T < 2 ^ 53 -> js_exact v -> ts_serialize v T = JOk bs /\
         (ts_faithful v -> ts_deserialize T (whole bs) = TsMessage (to_in v T))).
Proof.
  intros works u stem rc tc fs listing rust ts es p c s d Hu Hfs Hc G R Hr Hd.
  assert (exists l, load_schemas u stem fs = LoadOk l /\ validate (schemas_of l) = VOk) as (l & E & V).
  { unfold generate_code in G. destruct (load_schemas u stem fs) as [l| | |]; try discriminate G. exists l. split; [reflexivity|].
    destruct (validate (schemas_of l)); try discriminate G. reflexivity. }
  destruct (loaded_all u stem fs Hu Hfs l p E Hc R) as (f & Hin & Ep). destruct (loaded_in u stem fs Hu Hfs l _ f E Hin) as (_ & _ & s0 & Hr0 & _ & Hf).
  rewrite Ep in Hr0, Hf. destruct (reads_unique _ _ _ _ _ _ _ _ Hr Hr0) as [_ <-].
  pose proof (loaded_loaded u stem fs Hu Hfs l E) as HL.
  assert (declared (schemas_of l) (namespace_of u p) (lf_schema f) d) as HD.
  { split; [apply in_map_iff; exists (namespace_of u p, f); auto|]. destruct Hf as (_ & -> & _). exact Hd. }
  destruct (validated_types_are_finite_trees _ _ _ _ HL V HD) as (T & A & B & C).
  exists l, (lf_schema f), T. split; [exact E|]. split; [exact Hf|]. split; [exact HD|]. split; [exact A|]. split; [exact C|]. split; [exact B|].
  intros v bs Hv Hs. split.
  - intros Hz. now apply (validated_types_round_trip _ _ _ _ _ _ _ HL V HD A).
  - intros Hz Hj. destruct (ts_and_rust_bytes_agree v T bs Hv B Hj Hz Hs) as (_ & Ht & _). split; [exact Ht|]. intros Hq.
    pose proof (ts_round_trips v T [] bs [] Hv B Hq Hz Ht ltac:(constructor) ltac:(constructor)) as K. cbn [app lenN length] in K.
    rewrite app_nil_r in K. rewrite (js_exact_messages_are_unchanged v T Hj) in K. exact K.
Qed.
Print Assumptions generated_types_round_trip.
