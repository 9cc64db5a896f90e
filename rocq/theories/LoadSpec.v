(** What loading a schema should do. A specification. *)
From Verif Require Export Loader ModuleSpec ValidSpec.

Section Spec.
Context (u : unicode) (stem : str -> option str) (fs : files).
Definition namespace_of (p : path) : namespace := path_to_namespace u p.
(** The file [p] has these contents, which are a schema. *)
Definition reads (p : path) (contents : str) (s : sschema) : Prop :=
  fs_read fs p = Some contents /\ exists ts, tokenize u contents = LexOk ts /\ parse u stem ts = ParseOk s.
(** The schema in file [p] has an import that leads to file [q]. *)
Definition imports_file (p q : path) : Prop :=
  exists contents s k im, reads p contents s /\ In (k, im) (ss_imports s) /\ fs_locate fs (removelast p) (si_path im) = At q.
Inductive reachable : path -> Prop :=
| reach_main name : fs_main fs = Some name -> reachable [name]
| reach_import p q : reachable p -> imports_file p q -> reachable q.

(** What can be wrong with a file, and the error for it. *)
Inductive file_defect (p : path) : lerr -> Prop :=
| fd_unreadable : fs_read fs p = None -> file_defect p (LUnreadable p)
| fd_lex contents es : fs_read fs p = Some contents -> tokenize u contents = LexErr es -> file_defect p (LLex p es)
| fd_parse contents ts es : fs_read fs p = Some contents -> tokenize u contents = LexOk ts -> parse u stem ts = ParseErr es ->
    file_defect p (LParse p es)
| fd_missing contents s k im : reads p contents s -> In (k, im) (ss_imports s) ->
    fs_locate fs (removelast p) (si_path im) = Missing -> file_defect p (LNoFile p (si_path im))
| fd_outside contents s k im : reads p contents s -> In (k, im) (ss_imports s) ->
    fs_locate fs (removelast p) (si_path im) = Outside -> file_defect p (LOutside p (si_path im)).
(** The parser panics on it. *)
Definition panics (p : path) : Prop :=
  exists contents ts, fs_read fs p = Some contents /\ tokenize u contents = LexOk ts /\ parse u stem ts = ParsePanic.

(** The imports of file [p] with the namespaces they lead to. *)
Definition import_filled (p : path) (a b : ident * simport) : Prop :=
  fst b = fst a /\ si_path (snd b) = si_path (snd a) /\
  exists q, fs_locate fs (removelast p) (si_path (snd a)) = At q /\ si_namespace (snd b) = Some (namespace_of q).
Definition filled (p : path) (s s' : sschema) : Prop :=
  ss_comment s' = ss_comment s /\ ss_decls s' = ss_decls s /\ Forall2 (import_filled p) (ss_imports s) (ss_imports s').

(** Directories cannot be read as files, imports lead to files or directories that exist, and names are Unicode. *)
Record files_ok : Prop := mkFilesOk {
  fo_base : fs_read fs [] = None;
  fo_exist : forall dir import q, fs_locate fs dir import = At q -> In q (fs_entries fs);
  fo_text : forall q, In q (fs_entries fs) -> text_namespace (namespace_of q);
  fo_main : forall name, fs_main fs = Some name -> text_namespace (namespace_of [name]) }.
(** Different files that are reached have different namespaces. *)
Definition no_conflicts : Prop :=
  forall p q, reachable p -> reachable q -> same_ns (namespace_of p) (namespace_of q) -> p = q.
End Spec.
(** The names in a file, and the components of its path, are plain. *)
Definition plain_file (u : unicode) (fs : files) (p : path) : Prop :=
  Forall (good_ident u) (namespace_of u p) /\
  forall contents tokens t name, fs_read fs p = Some contents -> tokenize u contents = LexOk tokens ->
    In t tokens -> tvar t = TkIdentifier name -> good_ident u name.
