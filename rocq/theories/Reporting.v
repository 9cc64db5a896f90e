(** Model of /repo/src/validator.rs, schema_loader.rs and main.rs with error messages, the listings in them, and what is
    written on the standard error output. Definitions only.

    Validator.v, Loader.v and Commands.v model the same functions and leave these out; ReportingFacts.v shows that the
    models agree. Each error is paired with the value that stands for it in those models. *)
From Verif Require Export Located Commands.

(** Texts that come from the operating system or depend on how it writes paths. *)
Record texts := mkTexts {
  (** main.rs: [path.to_string_lossy()] of the schema path given to the command. *)
  x_main : str;
  (** schema_loader.rs 51-114: the error of [canonicalize], if it is that one. *)
  x_not_file : option str;
  (** schema_loader.rs 130-146: the error of [read_to_string]. *)
  x_unreadable : path -> str;
  (** schema_loader.rs 179, 188: the path of an import, joined with the directory and the base directory. *)
  x_joined : path -> str -> str;
  (** schema_loader.rs 184: the error of [canonicalize]. *)
  x_missing : path -> str -> str;
  (** schema_loader.rs 209, 210: the canonical path of an import, and of the base directory. *)
  x_canonical : path -> str -> str;
  x_base : str;
  (** main.rs 249: [directory.join(source_path)]. *)
  x_full : path -> str;
  (** main.rs 166, 178, 194, 209, 262: the error of [create_dir_all] or [write]. *)
  x_failure : effect -> str }.
(** [to_string_lossy] of a path relative to the base directory. *)
Definition show_path (p : path) : str := join [47] p.

Section Reporting.
Context (u : unicode) (pal : palette).
Let code := code_str pal.

(** [throw(message, Some(path), Some(&listing(contents, range)), None)]; [None]: [listing] panicked. *)
Definition at_range (p : path) (contents : str) (r : srange) (message : str) : option error :=
  match listing u pal contents r with
  | Some text => Some (throw pal message (Some (show_path p)) (Some text) None)
  | None => None
  end.

(** ** validator.rs *)
(** A loaded file (schema_loader.rs 43). *)
Record xfile := mkXFile { xl_schema : xschema; xl_path : path; xl_contents : str }.
Definition bare_file (f : xfile) : lfile := mkLFile (bare_schema (xl_schema f)) (xl_path f) (xl_contents f).
Definition bare_files (l : list (namespace * xfile)) : list (namespace * lfile) := map (fun e => (fst e, bare_file (snd e))) l.

Definition found := list (verr * error).
Definition both (a b : option found) : option found :=
  match a, b with Some x, Some y => Some (x ++ y) | _, _ => None end.
(** [if condition { errors.push(...) }]. *)
Definition push_if (condition : bool) (f : xfile) (r : srange) (kind : verr) (message : str) : option found :=
  if condition then match at_range (xl_path f) (xl_contents f) r message with Some e => Some [(kind, e)] | None => None end
  else Some [].

(** validator.rs 174-245: [validate_type]. *)
Fixpoint xvalidate_type (types : types_map) (ns : namespace) (f : xfile) (t : xty) : option found :=
  match t with
  | XyArray _ t' => xvalidate_type types ns f t'
  | XyLeaf r (SyCustom import n) =>
      match type_namespace ns (bare_schema (xl_schema f)) import with
      | None =>
          let i := match import with Some i => i | None => n end in
          push_if true f r (VNoImport i) (txt "There is no import named " ++ code (original i) ++ txt " in this file.")
      | Some None => None
      | Some (Some ns') =>
          push_if (match types_get (ns', n) types with Some _ => false | None => true end) f r (VNoType n)
            (match import with
             | Some i => txt "There is no type named " ++ code (original n) ++ txt " in import " ++ code (original i) ++ txt "."
             | None => txt "There is no type named " ++ code (original n) ++ txt " in this file."
             end)
      end
  | XyLeaf _ _ => Some []
  end.
(** validator.rs 61-125: the loop over the fields. *)
Fixpoint xvalidate_fields (types : types_map) (ns : namespace) (f : xfile) (deleted : list N)
    (names : list ident) (idxs : list N) (fs : list xfield) : option (found * list N) :=
  match fs with
  | [] => Some ([], idxs)
  | d :: fs' =>
      let i := xf_index d in
      let dup_index := contains N.eqb i idxs in
      let idxs' := if dup_index then idxs else i :: idxs in
      match
        both (push_if (contains ident_eqb (xf_name d) names) f (xf_range d) (VDupField (xf_name d))
                (txt "A field named " ++ code (original (xf_name d)) ++ txt " already exists in this declaration."))
        (both (push_if dup_index f (xf_range d) (VDupIndex i)
                (txt "A field with index " ++ code (print_number i) ++ txt " already exists in this declaration."))
        (both (push_if (contains N.eqb i deleted) f (xf_range d) (VDeleted i)
                (txt "Field index " ++ code (print_number i) ++ txt " is marked as deleted in this declaration."))
        (both (push_if (max_index <? i) f (xf_range d) (VTooLarge i)
                (txt "Field index " ++ code (print_number i) ++ txt " is too large. The maximum field index is " ++
                 code (print_number max_index) ++ txt "."))
        (xvalidate_type types ns f (xf_type d))))),
        xvalidate_fields types ns f deleted (xf_name d :: names) idxs' fs'
      with
      | Some es, Some (es', idxs'') => Some (es ++ es', idxs'')
      | _, _ => None
      end
  end.
(** validator.rs 127-140: the gaps. *)
Fixpoint xgaps (f : xfile) (r : srange) (is : list N) : option found :=
  match is with
  | [] => Some []
  | i :: is' =>
      both (push_if true f r (VGap i) (txt "Field index gap found. Unused index " ++ code (print_number i) ++ txt " is not marked as deleted."))
        (xgaps f r is')
  end.
(** validator.rs 43-141: the loop over the declarations. *)
Fixpoint xvalidate_decls (types : types_map) (ns : namespace) (f : xfile) (names : list ident) (ds : list xdecl) : option found :=
  match ds with
  | [] => Some []
  | d :: ds' =>
      match xvalidate_fields types ns f (xd_deleted d) [] [] (xd_fields d) with
      | None => None
      | Some (es, idxs) =>
          both (push_if (contains ident_eqb (xd_name d) names) f (xd_range d) (VDupDecl (xd_name d))
                  (txt "A declaration named " ++ code (original (xd_name d)) ++ txt " already exists in this file."))
          (both (Some es) (both (xgaps f (xd_range d) (gaps idxs (xd_deleted d)))
          (xvalidate_decls types ns f (xd_name d :: names) ds')))
      end
  end.
(** validator.rs 38-142: the loop over the files. *)
Fixpoint xvalidate_files (types : types_map) (files : list (namespace * xfile)) : option found :=
  match files with
  | [] => Some []
  | (ns, f) :: files' => both (xvalidate_decls types ns f [] (xs_decls (xl_schema f))) (xvalidate_files types files')
  end.
(** schema.rs 309-322: [Display for Namespace]. *)
Definition show_namespace (ns : namespace) : str := join [46] (map snake_case ns).
(** validator.rs 266-285: the message about a cycle; 8594 is the arrow. The traversal does not read the messages, so they are
    made at the end. *)
Definition cycle_error (e : verr) : error :=
  throw pal (match e with
             | VCycle p => txt "Cycle detected: " ++
                 join [32; 8594; 32] (map (fun q => code (show_namespace (fst q) ++ [46] ++ pascal_case u (snd q))) p) ++ txt "."
             | _ => []
             end) None None None.
(** validator.rs 18-172: [validate]. *)
Inductive xvres := XVOk | XVErr (es : found) | XVPanic | XVLoop.
Definition xvalidate (l : list (namespace * xfile)) : xvres :=
  let schemas := schemas_of (bare_files l) in
  let types := all_types schemas in
  match xvalidate_files types l with
  | None => XVPanic
  | Some [] =>
      match check_all types (type_names schemas) (mkC [] [] [] []) with
      | CDone st => match c_errors st with [] => XVOk | es => XVErr (map (fun e => (e, cycle_error e)) es) end
      | CPanic => XVPanic
      | CLoop => XVLoop
      end
  | Some es => XVErr es
  end.

(** ** schema_loader.rs *)
Context (grapheme : str -> N -> str) (stem : str -> option str) (fs : files) (x : texts).
(** The errors a value of Loader.v stands for. *)
Definition lfound := list (lerr * list error).
(** The local variables of [load_schemas]; with each path on the stack, the path and the listing of the import. *)
Record xlstate := mkXLState {
  y_stack : list (namespace * path * option (path * str)); y_visited : list namespace;
  y_schemas : list (namespace * xfile); y_errors : lfound }.
Definition xfail (e : lerr) (es : list error) (st : xlstate) : xlstate :=
  mkXLState (y_stack st) (y_visited st) (y_schemas st) (y_errors st ++ [(e, es)]).
(** schema_loader.rs 174-236: the loop over the imports. [None]: [listing] panicked. *)
Fixpoint xload_imports (p dir : path) (contents : str) (imports : list (ident * ximport)) (st : xlstate)
    : option (list (ident * ximport) * xlstate) :=
  match imports with
  | [] => Some ([], st)
  | (k, im) :: rest =>
      match listing u pal contents (xi_range im) with
      | None => None
      | Some origin =>
          let next (im' : ximport) (st' : xlstate) :=
            match xload_imports p dir contents rest st' with Some (rest', st'') => Some ((k, im') :: rest', st'') | None => None end in
          match fs_locate fs dir (xi_path im) with
          | Missing =>
              next im (xfail (LNoFile p (xi_path im))
                [throw pal (txt "Unable to load " ++ code (x_joined x dir (xi_path im)) ++ txt ".") (Some (show_path p)) (Some origin)
                   (Some (x_missing x dir (xi_path im)))] st)
          | Outside =>
              next im (xfail (LOutside p (xi_path im))
                [throw pal (code (x_canonical x dir (xi_path im)) ++ txt " is not a descendant of " ++ code (x_base x) ++
                            txt ", which is the base directory for this run.") (Some (show_path p)) (Some origin) None] st)
          | At q =>
              let ns := path_to_namespace u q in
              next (mkXImport (xi_range im) (xi_path im) (Some ns))
                (if contains ns_eqb ns (y_visited st) then st
                 else mkXLState ((ns, q, Some (p, origin)) :: y_stack st) (ns :: y_visited st) (y_schemas st) (y_errors st))
          end
      end
  end.
(** The errors of the tokenizer and of the parser, each with its listing; [None]: [listing] panicked. *)
Fixpoint all_listed (p : path) (contents : str) (es : list (srange * str)) : option (list error) :=
  match es with
  | [] => Some []
  | (r, message) :: es' =>
      match at_range p contents r message, all_listed p contents es' with Some e, Some es'' => Some (e :: es'') | _, _ => None end
  end.
(** schema_loader.rs 129-252: one round of the loop. *)
Inductive xlstep := XsNext (st : xlstate) | XsPanic | XsLoop.
Definition xload_file (ns : namespace) (p : path) (origin : option (path * str)) (st : xlstate) : xlstep :=
  match fs_read fs p with
  | None =>
      let message := txt "Unable to load " ++ code (show_path p) ++ txt "." in
      XsNext (xfail (LUnreadable p)
        [match origin with
         | Some (q, text) => throw pal message (Some (show_path q)) (Some text) (Some (x_unreadable x p))
         | None => throw pal message None None (Some (x_unreadable x p))
         end] st)
  | Some contents =>
      match tokenize_loc u pal (grapheme contents) contents with
      | XLexLoop => XsLoop
      | XLexErr es =>
          match all_listed p contents (map (fun e => (xl_range e, xl_message e)) es) with
          | Some errors => XsNext (xfail (LLex p (map xl_kind es)) errors st)
          | None => XsPanic
          end
      | XLexOk tokens =>
          match parse_loc u stem pal tokens with
          | XParsePanic => XsPanic
          | XParseLoop => XsLoop
          | XParseErr es =>
              match all_listed p contents (map (fun e => (xp_range e, xp_message e)) es) with
              | Some errors => XsNext (xfail (LParse p (map xp_kind es)) errors st)
              | None => XsPanic
              end
          | XParseOk s =>
              match p with
              | [] => XsPanic
              | _ =>
                  match xload_imports p (removelast p) contents (xs_imports s) st with
                  | None => XsPanic
                  | Some (imports, st1) =>
                      let (schemas, old) := ns_insert ns (mkXFile (mkXSchema (xs_comment s) imports (xs_decls s)) p contents) (y_schemas st1) in
                      let st2 := mkXLState (y_stack st1) (y_visited st1) schemas (y_errors st1) in
                      XsNext (match old with
                              | Some other =>
                                  xfail (LConflict ns)
                                    [throw pal (txt "This file conflicts with " ++ code (show_path (xl_path other)) ++
                                                txt ", since both correspond to the same namespace " ++ code (show_namespace ns) ++ txt ".")
                                       (Some (show_path p)) None None] st2
                              | None => st2
                              end)
                  end
              end
          end
      end
  end.
(** schema_loader.rs 128-260: the loop. *)
Inductive xlres := XLoadOk (schemas : list (namespace * xfile)) | XLoadErr (es : lfound) | XLoadPanic | XLoadLoop.
Fixpoint xload_loop (fuel : nat) (st : xlstate) : xlres :=
  match y_stack st with
  | [] => match y_errors st with [] => XLoadOk (y_schemas st) | es => XLoadErr es end
  | (ns, p, origin) :: stack =>
      match fuel with
      | O => XLoadLoop
      | S fuel' =>
          match xload_file ns p origin (mkXLState stack (y_visited st) (y_schemas st) (y_errors st)) with
          | XsNext st' => xload_loop fuel' st'
          | XsPanic => XLoadPanic
          | XsLoop => XLoadLoop
          end
      end
  end.
(** schema_loader.rs 38-261: [load_schemas]. *)
Definition xload_schemas : xlres :=
  match fs_main fs with
  | None => XLoadErr [(LNotFile, [throw pal (code (x_main x) ++ txt " is not a file.") None None (x_not_file x)])]
  | Some name =>
      let ns := path_to_namespace u [name] in
      xload_loop (S (length (fs_entries fs))) (mkXLState [(ns, [name], None)] [ns] [] [])
  end.

(** ** main.rs *)
(** What a command does, with what it writes on the standard error output. [eprintln!] is taken to succeed. *)
Inductive event := Say (text : str) | Do (e : effect).
Definition effects_of (l : list event) : list effect := flat_map (fun e => match e with Say _ => [] | Do e => [e] end) l.
Context (works : list effect -> effect -> bool) (wrap : N -> str -> list str).
(** main.rs 405-411: [main] after an error. *)
Definition stop (before : list event) (e : error) : list event * outcome := (before ++ [Say (display pal e)], Failed).
(** An operation followed by [map_err] and [?]. *)
Definition xtry (e : effect) (error : str -> error) (before : list event) (continue : list event -> list event * outcome) : list event * outcome :=
  if works (effects_of before) e then continue (before ++ [Do e]) else stop (before ++ [Do e]) (error (x_failure x e)).
(** An ellipsis. *)
Definition dots : str := [8230].
Definition pushed_errors {K} (es : list (K * list error)) : list error := flat_map snd es.
(** main.rs 247-273: the loop over the schemas. *)
Fixpoint xformat_loop (check : bool) (l : list (namespace * xfile)) (any : bool) (before : list event) : list event * outcome :=
  match l with
  | [] =>
      if check && any
      then stop before (throw pal (txt "Formatting mismatch. Please run " ++ code (txt "typical format " ++ x_main x) ++ txt ".") None None None)
      else (before ++ [Say (txt "Done.")], Succeeded)
  | (_, f) :: rest =>
      let contents := print_schema u stem wrap (bare_schema (xl_schema f)) in
      let updated := negb (str_eqb (xl_contents f) contents) in
      let before' := before ++ [Say (txt "  " ++ code (x_full x (xl_path f)))] in
      if updated && negb check
      then xtry (Write (ToSchema (xl_path f)) contents)
             (fun why => throw pal (txt "Unable to write file.") (Some (show_path (xl_path f))) None (Some why)) before'
             (xformat_loop check rest (any || updated))
      else xformat_loop check rest (any || updated) before'
  end.
(** main.rs 230-232, 134-137: loading, in both commands. *)
Definition xload (continue : list (namespace * xfile) -> list event -> list event * outcome) : list event * outcome :=
  let before := [Say (txt "Loading schemas" ++ dots)] in
  match xload_schemas with
  | XLoadOk l => continue l (before ++ [Say (count (lenN l) (txt "schema") ++ txt " loaded.")])
  | XLoadErr es => stop before (merge_errors u pal (pushed_errors es))
  | XLoadPanic | XLoadLoop => (before, Crashed)
  end.
(** main.rs 228-291: [format_schema]. *)
Definition xformat_schema (check : bool) : list event * outcome :=
  xload (fun l before =>
    xformat_loop check l false (before ++ [Say ((if check then txt "Checking" else txt "Formatting") ++ txt " schemas" ++ dots)])).

Context (rust_code ts_code : list (namespace * sschema) -> option str).
(** main.rs 155-157. *)
Definition xlist (l : list (namespace * xfile)) : list event := map (fun e => Do (ListSchema (xl_path (snd e)))) l.
(** main.rs 161-186, 189-219: one output. *)
Definition xemit (language : str) (t : option target) (code_text : option str) (before : list event)
    (continue : list event -> list event * outcome) : list event * outcome :=
  match t with
  | None => continue before
  | Some t =>
      let before' := before ++ [Say (txt "Generating " ++ language ++ dots)] in
      let write before :=
        let before' := before ++ [Say (txt "Writing " ++ code (t_file t) ++ dots)] in
        match code_text with
        | Some text =>
            xtry (Write (ToFile (t_file t)) text)
              (fun why => throw pal (txt "Unable to write " ++ code (t_file t) ++ txt ".") None None (Some why)) before' continue
        | None => (before', Crashed)
        end in
      match t_parent t with
      | Some dir =>
          xtry (MakeDir dir) (fun why => throw pal (txt "Unable to create " ++ code dir ++ txt ".") None None (Some why)) before' write
      | None => write before'
      end
  end.
(** main.rs 127-225: [generate_code]. *)
Definition xgenerate_code (list_schemas : bool) (rust typescript : option target) : list event * outcome :=
  xload (fun l before =>
    let before := before ++ [Say (txt "Validating schemas" ++ dots)] in
    match xvalidate l with
    | XVOk =>
        let schemas := schemas_of (bare_files l) in
        let before := if list_schemas then before ++ Say (txt "Listing schemas" ++ dots) :: xlist l else before in
        xemit (txt "Rust") rust (rust_code schemas) before (fun before =>
        xemit (txt "TypeScript") typescript (ts_code schemas) before (fun before =>
          (before ++ [Say (txt "Done.")], Succeeded)))
    | XVErr es => stop before (merge_errors u pal (map snd es))
    | XVPanic | XVLoop => (before, Crashed)
    end).
End Reporting.
