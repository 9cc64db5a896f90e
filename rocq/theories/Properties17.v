(** Property theorems about the reporting of errors by the commands: C77 to C79. See MANIFEST.json. *)
From Coq Require Import String.
From Verif Require Import TokenFacts TokenFacts2 ReportFacts LocatedFacts3 ReportingFacts5 CycleFacts Properties7.
Open Scope N_scope. Open Scope list_scope.

(** C77 *)
Theorem loading_errors_are_faults : forall u pal grapheme stem fs x es, ascii_agrees u -> white_not_alphabetic u -> files_ok u fs ->
  fs_main fs <> None -> xload_schemas u pal grapheme stem fs x = XLoadErr es ->
  forall e, In e (pushed_errors es) -> exists p, reachable u stem fs p /\ load_fault u pal grapheme stem fs x p e.
Proof. intros u pal g stem fs x es Hu Hw Hfs Hm E. apply (load_errors_said u pal Hu Hw g stem fs x Hfs es E Hm). Qed.
Print Assumptions loading_errors_are_faults.
(** No file is passed over, and of a file without syntax errors nothing is left out. *)
Theorem loading_faults_are_reported : forall u pal grapheme stem fs x es p e, ascii_agrees u -> white_not_alphabetic u -> files_ok u fs ->
  no_conflicts u stem fs -> xload_schemas u pal grapheme stem fs x = XLoadErr es ->
  reachable u stem fs p -> load_fault u pal grapheme stem fs x p e ->
  (grammatical u stem fs p -> In e (pushed_errors es)) /\ exists e', In e' (pushed_errors es) /\ load_fault u pal grapheme stem fs x p e'.
Proof.
  intros u pal g stem fs x es p e Hu Hw Hfs Hc E R. apply (load_errors_said u pal Hu Hw g stem fs x Hfs es E); [|exact Hc|exact R].
  clear -R. induction R; congruence.
Qed.
Print Assumptions loading_faults_are_reported.
(** The errors are those of the loader of C40 and the following properties, which has the same result. *)
Theorem loading_is_reported : forall u pal grapheme stem fs x, ascii_agrees u -> white_not_alphabetic u ->
  load_schemas u stem fs = match xload_schemas u pal grapheme stem fs x with
                           | XLoadOk l => LoadOk (bare_files l) | XLoadErr es => LoadErr (map fst es)
                           | XLoadPanic => LoadPanic | XLoadLoop => LoadLoop
                           end.
Proof. intros u pal g stem fs x Hu Hw. now rewrite <- (xload_forget u pal Hu Hw stem g fs x). Qed.
Print Assumptions loading_is_reported.

(** C78 *)
Theorem validation_errors_are_faults : forall u pal grapheme stem fs x l es, ascii_agrees u -> white_not_alphabetic u -> files_ok u fs ->
  xload_schemas u pal grapheme stem fs x = XLoadOk l -> ~ valid (schemas_of (bare_files l)) -> xvalidate u pal l = XVErr es ->
  forall e, In e (map snd es) <->
    exists ns f r m, In (ns, f) l /\ file_fault pal (schemas_of (bare_files l)) ns f r m /\ reported u pal f r m e.
Proof.
  intros u pal g stem fs x l es Hu Hw Hfs E Hv Ev e. set (schemas := schemas_of (bare_files l)) in *.
  assert (loaded schemas) as HL. { apply (loaded_loaded u stem fs Hu Hfs). rewrite (loading_is_reported u pal g stem fs x Hu Hw). now rewrite E. }
  assert (forall ns f, In (ns, f) l -> imports_ok (bare_schema (xl_schema f))) as Hi.
  { intros ns f Hin. destruct HL as (_ & L2 & _). apply (L2 ns). unfold schemas, schemas_of, bare_files. rewrite map_map. apply in_map_iff. exists (ns, f). now split. }
  pose proof (xvalidate_forget u pal l (loaded_listable u pal Hu Hw g stem fs x Hfs l E)) as Hf. fold schemas in Hf.
  rewrite Ev in Hf. cbn [forget_valid] in Hf. symmetry in Hf.
  assert (xvalidate_files u pal (all_types schemas) l = Some es) as Ex.
  { unfold xvalidate in Ev. fold schemas in Ev. destruct (xvalidate_files u pal (all_types schemas) l) as [[|e0 es0]|] eqn:Ex; [|congruence|discriminate].
    exfalso. apply Hv. pose proof (validate_spec schemas HL) as Hs. rewrite Hf in Hs. destruct Hs as [[_ Hs]|[Hs _]]; [|exact Hs].
    pose proof (files_kinds u pal schemas l (loaded_listable u pal Hu Hw g stem fs x Hfs l E)) as Hk. rewrite Ex in Hk. cbn [kinds option_map map] in Hk.
    destruct (validate_files_iff schemas HL) as (es1 & E1 & Hiff). apply Hiff. fold schemas in Hk. rewrite E1 in Hk. now injection Hk as <-. }
  rewrite (xfiles_faults u pal schemas l Hi es Ex e). unfold told. split.
  - intros (ns & f & H1 & r & m & H2 & H3). now exists ns, f, r, m.
  - intros (ns & f & r & m & H1 & H2 & H3). exists ns, f. split; [exact H1|]. now exists r, m.
Qed.
Print Assumptions validation_errors_are_faults.
Theorem cycle_errors_are_cycles : forall u pal grapheme stem fs x l es, ascii_agrees u -> white_not_alphabetic u -> files_ok u fs ->
  xload_schemas u pal grapheme stem fs x = XLoadOk l -> valid (schemas_of (bare_files l)) -> xvalidate u pal l = XVErr es ->
  forall e, In e (map snd es) -> exists cycle, shows_cycle (schemas_of (bare_files l)) cycle /\
    e = throw pal (txt "Cycle detected: " ++
      join [32; 8594; 32] (map (fun q => code_str pal (join [46] (map snake_case (fst q)) ++ [46] ++ pascal_case u (snd q))) cycle) ++ txt ".") None None None.
Proof.
  intros u pal g stem fs x l es Hu Hw Hfs E Hv Ev e He. set (schemas := schemas_of (bare_files l)) in *.
  assert (loaded schemas) as HL. { apply (loaded_loaded u stem fs Hu Hfs). rewrite (loading_is_reported u pal g stem fs x Hu Hw). now rewrite E. }
  pose proof (xvalidate_forget u pal l (loaded_listable u pal Hu Hw g stem fs x Hfs l E)) as Hf. fold schemas in Hf. rewrite Ev in Hf. cbn [forget_valid] in Hf. symmetry in Hf.
  apply in_map_iff in He as ([k e'] & <- & He). cbn [snd].
  destruct (reported_cycles_are_cycles schemas _ k HL Hv Hf) as (path & -> & Hs & _); [apply in_map_iff; now exists (k, e')|]. exists path. split; [exact Hs|].
  unfold xvalidate in Ev. fold schemas in Ev. destruct (validate_files_iff schemas HL) as (es1 & E1 & Hiff). apply Hiff in Hv. subst es1.
  pose proof (files_kinds u pal schemas l (loaded_listable u pal Hu Hw g stem fs x Hfs l E)) as Hk. fold schemas in Hk. rewrite E1 in Hk.
  destruct (xvalidate_files u pal (all_types schemas) l) as [[|e0 es0]|]; [|discriminate Hk|discriminate Hk].
  destruct (check_all (all_types schemas) (type_names schemas) (mkC [] [] [] [])) as [st| |]; [|discriminate Ev|discriminate Ev].
  destruct (c_errors st) as [|e1 es1]; [discriminate Ev|]. injection Ev as <-. change (In (VCycle path, e') (map (fun e => (e, cycle_error u pal e)) (e1 :: es1))) in He. apply in_map_iff in He as (k & Ek & _). injection Ek as -> <-. reflexivity.
Qed.
Print Assumptions cycle_errors_are_cycles.
(** The parts of the schemas that the errors are about are where the errors say. *)
Theorem loaded_parts_are_located : forall u pal grapheme stem fs x l ns f, ascii_agrees u -> white_not_alphabetic u -> files_ok u fs ->
  xload_schemas u pal grapheme stem fs x = XLoadOk l -> In (ns, f) l ->
  fs_read fs (xl_path f) = Some (xl_contents f) /\ exists ts s, tokenize u (xl_contents f) = LexOk ts /\ schema_at u stem s ts /\
    xs_decls (xl_schema f) = xs_decls s.
Proof.
  intros u pal g stem fs x l ns f Hu Hw Hfs E Hin. pose proof (loaded_said u pal Hu Hw g stem fs x Hfs l E) as H. rewrite Forall_forall in H.
  destruct (H _ Hin) as (ts & s & H1 & H2 & H3 & H4). cbn [snd] in *. split; [exact H1|]. exists ts, s. split; [exact H2|]. split; [now apply (parse_is_at u stem pal)|exact H4].
Qed.
Print Assumptions loaded_parts_are_located.
(** The errors are those of the validator of C32 and the following properties, which has the same result. *)
Theorem validation_is_reported : forall u pal grapheme stem fs x l, ascii_agrees u -> white_not_alphabetic u -> files_ok u fs ->
  xload_schemas u pal grapheme stem fs x = XLoadOk l ->
  validate (schemas_of (bare_files l)) = match xvalidate u pal l with
                                         | XVOk => VOk | XVErr es => VErr (map fst es) | XVPanic => VPanic | XVLoop => VLoop
                                         end.
Proof. intros u pal g stem fs x l Hu Hw Hfs E. now rewrite <- (xvalidate_forget u pal l (loaded_listable u pal Hu Hw g stem fs x Hfs l E)). Qed.
Print Assumptions validation_is_reported.

(** C79: how an error is laid out, without colours: the file it is in, the message, the listing, the reason. *)
Theorem errors_are_laid_out : forall message path listing reason,
  display None (throw None message path listing reason) =
    txt "[Error] " ++
    match path with Some p => txt "[`" ++ p ++ txt "`] " | None => [] end ++
    message ++
    match listing with Some (c :: l) => [10; 10] ++ c :: l | _ => [] end ++
    match reason with Some r => [10; 10] ++ txt "Reason: " ++ r | None => [] end.
Proof.
  intros m path l r. unfold display, throw. cbn [e_message e_reason paint code_str].
  destruct path as [p|], l as [[|c l]|], r as [r|]; cbn [app]; repeat (rewrite <- app_assoc; cbn [app]); rewrite ?app_nil_r; reflexivity.
Qed.
Print Assumptions errors_are_laid_out.
(** C79 *)
(** Reporting does not change what a command does. *)
Theorem reporting_changes_nothing : forall u pal grapheme stem fs x works wrap rust_code ts_code, ascii_agrees u -> white_not_alphabetic u -> files_ok u fs ->
  (forall check, let r := xformat_schema u pal grapheme stem fs x works wrap check in
    format_schema works u stem wrap fs check = (effects_of (fst r), snd r)) /\
  (forall list_schemas rust typescript, let r := xgenerate_code u pal grapheme stem fs x works rust_code ts_code list_schemas rust typescript in
    generate_code works u stem rust_code ts_code fs list_schemas rust typescript = (effects_of (fst r), snd r)).
Proof.
  intros u pal g stem fs x works wrap rc tc Hu Hw Hfs. split.
  - intros check r. symmetry. exact (xformat_observed u pal Hu Hw g stem fs x works wrap check).
  - intros ls rust ts r. symmetry. exact (xgenerate_observed u pal Hu Hw g stem fs x Hfs works rc tc ls rust ts).
Qed.
Print Assumptions reporting_changes_nothing.
(** If the schemas cannot be loaded, all errors are written, and nothing else happens. *)
Theorem unloadable_schemas_are_reported : forall u pal grapheme stem fs x works wrap rust_code ts_code es, ascii_agrees u -> white_not_alphabetic u -> files_ok u fs ->
  xload_schemas u pal grapheme stem fs x = XLoadErr es ->
  exists text, merged u pal (pushed_errors es) text /\
    (forall check, xformat_schema u pal grapheme stem fs x works wrap check = ([Say (txt "Loading schemas" ++ [8230]); Say text], Failed)) /\
    (forall list_schemas rust typescript, xgenerate_code u pal grapheme stem fs x works rust_code ts_code list_schemas rust typescript =
      ([Say (txt "Loading schemas" ++ [8230]); Say text], Failed)).
Proof.
  intros u pal g stem fs x works wrap rc tc es Hu Hw Hfs E. exists (display pal (merge_errors u pal (pushed_errors es))). split.
  - apply merge_merged; [apply (newline_white u Hu)|]. now apply (load_speaks u pal Hu Hw g stem fs x).
  - split; intros; unfold xformat_schema, xgenerate_code, xload; rewrite E; reflexivity.
Qed.
Print Assumptions unloadable_schemas_are_reported.
(** If they are not valid, likewise. *)
Theorem invalid_schemas_are_reported : forall u pal grapheme stem fs x works rust_code ts_code l es list_schemas rust typescript, ascii_agrees u -> white_not_alphabetic u ->
  files_ok u fs -> xload_schemas u pal grapheme stem fs x = XLoadOk l -> xvalidate u pal l = XVErr es ->
  exists text, merged u pal (map snd es) text /\
    xgenerate_code u pal grapheme stem fs x works rust_code ts_code list_schemas rust typescript =
      ([Say (txt "Loading schemas" ++ [8230]); Say (count (lenN l) (txt "schema") ++ txt " loaded."); Say (txt "Validating schemas" ++ [8230]); Say text], Failed).
Proof.
  intros u pal g stem fs x works rc tc l es ls rust ts Hu Hw Hfs E Ev. exists (display pal (merge_errors u pal (map snd es))). split.
  - apply merge_merged; [apply (newline_white u Hu)|]. unfold xvalidate in Ev. intros H. apply map_eq_nil in H. subst es.
    destruct (xvalidate_files u pal _ l) as [[|e0 es0]|]; [|discriminate|discriminate].
    destruct (check_all _ _ _) as [st| |]; [|discriminate|discriminate]. destruct (c_errors st); discriminate.
  - unfold xgenerate_code, xload. rewrite E, Ev. reflexivity.
Qed.
Print Assumptions invalid_schemas_are_reported.

(** An operation that fails is the last one, and the reason is written. *)
Theorem failing_operations_are_reported : forall u pal grapheme stem fs x works wrap rust_code ts_code r before e after, ascii_agrees u -> white_not_alphabetic u -> files_ok u fs ->
  (exists check, r = xformat_schema u pal grapheme stem fs x works wrap check) \/
  (exists list_schemas rust typescript, r = xgenerate_code u pal grapheme stem fs x works rust_code ts_code list_schemas rust typescript) ->
  fst r = before ++ Do e :: after -> fails works before e ->
  snd r = Failed /\ exists err, failure pal x e err /\ after = [Say (display pal err)].
Proof.
  intros u pal g stem fs x works wrap rc tc r before e after Hu Hw Hfs Hr E Hx.
  destruct (run_fine u pal Hu Hw g stem fs x works wrap rc tc r Hr) as [(more & Em & A)|(texts & text & Em & _)].
  - apply (af_fails _ _ _ _ _ _ A before e after); [now rewrite <- E, Em|exact Hx].
  - exfalso. rewrite Em in E. assert (In (Do e) (map Say (texts ++ [text]))) as Hin by (rewrite E; apply in_app_iff; right; now left).
    apply in_map_iff in Hin as (? & [=] & _).
Qed.
Print Assumptions failing_operations_are_reported.
(** A failure has one of these reasons, which is written last. *)
Theorem failures_are_explained : forall u pal grapheme stem fs x works wrap rust_code ts_code r, ascii_agrees u -> white_not_alphabetic u -> files_ok u fs ->
  (exists check, r = xformat_schema u pal grapheme stem fs x works wrap check) \/
  (exists list_schemas rust typescript, r = xgenerate_code u pal grapheme stem fs x works rust_code ts_code list_schemas rust typescript) ->
  snd r = Failed ->
  exists before text, fst r = before ++ [Say text] /\
    ((exists es, xload_schemas u pal grapheme stem fs x = XLoadErr es /\ merged u pal (pushed_errors es) text) \/
     (exists l es, xload_schemas u pal grapheme stem fs x = XLoadOk l /\ xvalidate u pal l = XVErr es /\ merged u pal (map snd es) text) \/
     (exists before' e err, before = before' ++ [Do e] /\ fails works before' e /\ failure pal x e err /\ text = display pal err) \/
     text = display pal (mismatch pal x)).
Proof.
  intros u pal g stem fs x works wrap rc tc r Hu Hw Hfs Hr Ho.
  destruct (run_fine u pal Hu Hw g stem fs x works wrap rc tc r Hr) as [(more & Em & A)|(texts & text & Em & _ & [(es & H)|(l & es & H)])].
  - destruct (af_failed _ _ _ _ _ _ A Ho) as [(m1 & e & err & -> & H1 & H2)|(m1 & ->)].
    + exists (m1 ++ [Do e]), (display pal err). split; [rewrite Em; cbn [app]; now rewrite <- app_assoc|]. right. right. left. now exists m1, e, err.
    + exists m1, (display pal (mismatch pal x)). split; [exact Em|]. auto.
  - exists (map Say texts), text. rewrite map_app in Em. split; [exact Em|]. left. now exists es.
  - exists (map Say texts), text. rewrite map_app in Em. split; [exact Em|]. right. left. now exists l, es.
Qed.
Print Assumptions failures_are_explained.
Theorem success_is_announced : forall u pal grapheme stem fs x works wrap rust_code ts_code r, ascii_agrees u -> white_not_alphabetic u -> files_ok u fs -> palette_ok pal ->
  (exists check, r = xformat_schema u pal grapheme stem fs x works wrap check) \/
  (exists list_schemas rust typescript, r = xgenerate_code u pal grapheme stem fs x works rust_code ts_code list_schemas rust typescript) ->
  snd r = Succeeded <-> exists before, fst r = before ++ [Say (txt "Done.")].
Proof.
  intros u pal g stem fs x works wrap rc tc r Hu Hw Hfs Hp Hr.
  destruct (run_fine u pal Hu Hw g stem fs x works wrap rc tc r Hr) as [(more & Em & A)|(texts & text & Em & Hf & H)].
  - cbn [app] in Em. rewrite Em. split; [apply (af_done _ _ _ _ _ _ A)|now apply (af_not_done _ _ _ _ _ _ A)].
  - rewrite Hf. split; [discriminate|]. intros (before & E). exfalso. rewrite Em, map_app in E. apply app_inj_tail in E as [_ E]. injection E as ->.
    assert (announces (txt "Done.")) as Hd; [|now apply announces_not_done in Hd].
    destruct H as [(es & H1 & H2)|(l & es & H1 & H2 & H3)]; [now apply (load_announces u pal Hu Hw g stem fs x Hfs Hp es)|].
    now apply (valid_announces u pal Hu Hw g stem fs x Hfs Hp l es).
Qed.
Print Assumptions success_is_announced.
