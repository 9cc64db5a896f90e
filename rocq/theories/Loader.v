(** Model of schema_loader.rs: loading a schema and everything it imports. Definitions only. *)
From Verif Require Export Tokenizer Parser Validator.

(** A path relative to the base directory: its components, which are all normal ones. *)
Definition path := list str.
(** [Path::file_stem] of the last component: what precedes the last dot, unless that dot comes first. *)
Fixpoint before_last_dot (s : str) : option str :=
  match s with
  | [] => None
  | c :: s' => match before_last_dot s' with Some b => Some (c :: b) | None => if c =? 46 then Some [] else None end
  end.
Definition without_extension (name : str) : str :=
  if str_eqb name (txt "..") then name
  else match before_last_dot name with Some (c :: b) => c :: b | _ => name end.
(** schema_loader.rs 19-36: [path_to_namespace]; [set_extension("")] changes the last component only. *)
Fixpoint path_to_namespace (u : unicode) (p : path) : namespace :=
  match p with
  | [] => []
  | [name] => [ident_from u (without_extension name)]
  | c :: p' => ident_from u c :: path_to_namespace u p'
  end.

(** schema.rs 86-94: the derived [Ord] of namespaces, and a [BTreeMap] with namespaces for keys, as a list in increasing
    order; [BTreeMap::insert] also returns the value replaced. *)
Fixpoint ns_cmp (a b : namespace) : comparison :=
  match a, b with
  | [], [] => Eq
  | [], _ :: _ => Lt
  | _ :: _, [] => Gt
  | x :: a', y :: b' => match ident_cmp x y with Eq => ns_cmp a' b' | c => c end
  end.
Fixpoint ns_insert {V} (k : namespace) (v : V) (m : list (namespace * V)) : list (namespace * V) * option V :=
  match m with
  | [] => ([(k, v)], None)
  | (k', v') :: m' =>
      match ns_cmp k k' with
      | Lt => ((k, v) :: m, None)
      | Eq => ((k', v) :: m', Some v')
      | Gt => let (m'', old) := ns_insert k v m' in ((k', v') :: m'', old)
      end
  end.

(** What the operating system says about files. *)
Inductive located := Missing | Outside | At (p : path).
Record files := mkFiles {
  (** schema_loader.rs 51-114: the name of the schema file, if [parent], [canonicalize] and [file_name] succeed. *)
  fs_main : option str;
  (** [read_to_string] of the base directory joined with a path; [None] is an error, e.g. text that is not UTF-8. *)
  fs_read : path -> option str;
  (** [canonicalize] of the base directory joined with a directory and the path of an import, and then [strip_prefix] of
      the base directory. *)
  fs_locate : path -> str -> located;
  (** All files and directories below the base directory, of which there are finitely many. *)
  fs_entries : list path }.

(** A loaded file: the schema, its path and its contents. *)
Record lfile := mkLFile { lf_schema : sschema; lf_path : path; lf_contents : str }.
Inductive lerr :=
| LNotFile | LUnreadable (p : path) | LLex (p : path) (es : list lexerr) | LParse (p : path) (es : list perr)
| LNoFile (p : path) (import : str) | LOutside (p : path) (import : str) | LConflict (ns : namespace).
(** The local variables of [load_schemas]. The stack is a list whose head is its top; listings for messages are left out. *)
Record lstate := mkLState {
  l_stack : list (namespace * path); l_visited : list namespace; l_schemas : list (namespace * lfile); l_errors : list lerr }.
Inductive lres := LoadOk (schemas : list (namespace * lfile)) | LoadErr (es : list lerr) | LoadPanic | LoadLoop.
Definition fail (e : lerr) (st : lstate) : lstate := mkLState (l_stack st) (l_visited st) (l_schemas st) (l_errors st ++ [e]).

Section Load.
Context (u : unicode) (stem : str -> option str) (fs : files).
(** schema_loader.rs 174-236: the loop over the imports of the file [p], which lies in directory [dir]. It returns the
    imports with the namespaces filled in. *)
Fixpoint load_imports (p dir : path) (imports : list (ident * simport)) (st : lstate) : list (ident * simport) * lstate :=
  match imports with
  | [] => ([], st)
  | (k, im) :: rest =>
      match fs_locate fs dir (si_path im) with
      | Missing => let (rest', st') := load_imports p dir rest (fail (LNoFile p (si_path im)) st) in ((k, im) :: rest', st')
      | Outside => let (rest', st') := load_imports p dir rest (fail (LOutside p (si_path im)) st) in ((k, im) :: rest', st')
      | At q =>
          let ns := path_to_namespace u q in
          let st1 := if contains ns_eqb ns (l_visited st) then st
                     else mkLState ((ns, q) :: l_stack st) (ns :: l_visited st) (l_schemas st) (l_errors st) in
          let (rest', st') := load_imports p dir rest st1 in
          ((k, mkSImport (si_path im) (Some ns)) :: rest', st')
      end
  end.
(** schema_loader.rs 129-252: one round of the loop, for a namespace and path just popped. *)
Inductive lstep := LsNext (st : lstate) | LsPanic | LsLoop.
Definition load_file (ns : namespace) (p : path) (st : lstate) : lstep :=
  match fs_read fs p with
  | None => LsNext (fail (LUnreadable p) st)
  | Some contents =>
      match tokenize u contents with
      | LexLoop => LsLoop
      | LexErr es => LsNext (fail (LLex p es) st)
      | LexOk tokens =>
          match parse u stem tokens with
          | ParsePanic => LsPanic
          | ParseLoop => LsLoop
          | ParseErr es => LsNext (fail (LParse p es) st)
          | ParseOk s =>
              match p with
              | [] => LsPanic
              | _ =>
                  let (imports, st1) := load_imports p (removelast p) (ss_imports s) st in
                  let (schemas, old) := ns_insert ns (mkLFile (mkSSchema (ss_comment s) imports (ss_decls s)) p contents) (l_schemas st1) in
                  let st2 := mkLState (l_stack st1) (l_visited st1) schemas (l_errors st1) in
                  LsNext (match old with Some _ => fail (LConflict ns) st2 | None => st2 end)
              end
          end
      end
  end.
(** schema_loader.rs 128-260: the loop. The counter bounds the number of rounds. *)
Fixpoint load_loop (fuel : nat) (st : lstate) : lres :=
  match l_stack st with
  | [] => match l_errors st with [] => LoadOk (l_schemas st) | es => LoadErr es end
  | (ns, p) :: stack =>
      match fuel with
      | O => LoadLoop
      | S fuel' =>
          match load_file ns p (mkLState stack (l_visited st) (l_schemas st) (l_errors st)) with
          | LsNext st' => load_loop fuel' st'
          | LsPanic => LoadPanic
          | LsLoop => LoadLoop
          end
      end
  end.
(** schema_loader.rs 38-261: [load_schemas]. *)
Definition load_schemas : lres :=
  match fs_main fs with
  | None => LoadErr [LNotFile]
  | Some name =>
      let ns := path_to_namespace u [name] in
      load_loop (S (length (fs_entries fs))) (mkLState [(ns, [name])] [ns] [] [])
  end.
End Load.
(** What validation and the generators get (main.rs 139, 164, 197): the paths and contents serve for messages only. *)
Definition schemas_of (l : list (namespace * lfile)) : list (namespace * sschema) := map (fun e => (fst e, lf_schema (snd e))) l.
