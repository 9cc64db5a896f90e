(** What should be reported about schemas that are not valid, and where. A specification, independent of how the validator
    works. *)
From Verif Require Export Reporting ReportSpec LexErrSpec LocatedSpec ValidSpec LoadSpec.

(** The user-defined types a type mentions, with the ranges of their names. *)
Inductive mentions_at : xty -> srange -> option ident -> ident -> Prop :=
| mentions_at_array r t r' i n : mentions_at t r' i n -> mentions_at (XyArray r t) r' i n
| mentions_at_custom r i n : mentions_at (XyLeaf r (SyCustom i n)) r i n.

Section Faults.
Context (pal : palette) (schemas : list (namespace * sschema)).
Let code := code_str pal.
Let num (n : N) := code_str pal (print_number n).

(** [type_fault ns s t r m]: in file [s] of namespace [ns], the type [t] is wrong at [r], and [m] says why. *)
Inductive type_fault (ns : namespace) (s : sschema) (t : xty) : srange -> str -> Prop :=
| fault_import r i n : mentions_at t r (Some i) n -> (forall ns', ~ leads_to ns s (Some i) ns') ->
    type_fault ns s t r (txt "There is no import named " ++ code (original i) ++ txt " in this file.")
| fault_imported r i n ns' : mentions_at t r (Some i) n -> leads_to ns s (Some i) ns' ->
    (forall ns2 s2 d2, declared schemas ns2 s2 d2 -> ~ same_q (ns2, sd_name d2) (ns', n)) ->
    type_fault ns s t r (txt "There is no type named " ++ code (original n) ++ txt " in import " ++ code (original i) ++ txt ".")
| fault_local r n : mentions_at t r None n ->
    (forall ns2 s2 d2, declared schemas ns2 s2 d2 -> ~ same_q (ns2, sd_name d2) (ns, n)) ->
    type_fault ns s t r (txt "There is no type named " ++ code (original n) ++ txt " in this file.").
Definition used_indices (d : xdecl) : list N := map xf_index (xd_fields d).
(** What is wrong with a declaration: mostly, with one of its fields. *)
Inductive decl_fault (ns : namespace) (s : sschema) (d : xdecl) : srange -> str -> Prop :=
| fault_name before f after g : xd_fields d = before ++ f :: after -> In g before -> same_ident (xf_name f) (xf_name g) ->
    decl_fault ns s d (xf_range f) (txt "A field named " ++ code (original (xf_name f)) ++ txt " already exists in this declaration.")
| fault_index before f after : xd_fields d = before ++ f :: after -> In (xf_index f) (map xf_index before) ->
    decl_fault ns s d (xf_range f) (txt "A field with index " ++ num (xf_index f) ++ txt " already exists in this declaration.")
| fault_deleted f : In f (xd_fields d) -> In (xf_index f) (xd_deleted d) ->
    decl_fault ns s d (xf_range f) (txt "Field index " ++ num (xf_index f) ++ txt " is marked as deleted in this declaration.")
| fault_large f : In f (xd_fields d) -> 2 ^ 62 - 1 < xf_index f ->
    decl_fault ns s d (xf_range f)
      (txt "Field index " ++ num (xf_index f) ++ txt " is too large. The maximum field index is " ++ num (2 ^ 62 - 1) ++ txt ".")
| fault_type f r m : In f (xd_fields d) -> type_fault ns s (xf_type f) r m -> decl_fault ns s d r m
| fault_gap used i : NoDup used -> (forall j, In j used <-> In j (used_indices d)) ->
    i < N.of_nat (length used + length (xd_deleted d)) -> ~ In i (used_indices d) -> ~ In i (xd_deleted d) ->
    decl_fault ns s d (xd_range d) (txt "Field index gap found. Unused index " ++ num i ++ txt " is not marked as deleted.").
(** What is wrong with a file. *)
Inductive file_fault (ns : namespace) (f : xfile) : srange -> str -> Prop :=
| fault_decl before d after d' : xs_decls (xl_schema f) = before ++ d :: after -> In d' before ->
    same_ident (xd_name d) (xd_name d') ->
    file_fault ns f (xd_range d) (txt "A declaration named " ++ code (original (xd_name d)) ++ txt " already exists in this file.")
| fault_in d r m : In d (xs_decls (xl_schema f)) -> decl_fault ns (bare_schema (xl_schema f)) d r m -> file_fault ns f r m.
End Faults.

(** The error with message [m] about the range [r] of file [f]. *)
Definition reported (u : unicode) (pal : palette) (f : xfile) (r : srange) (m : str) (e : error) : Prop :=
  exists text, listing u pal (xl_contents f) r = Some text /\ e = throw pal m (Some (show_path (xl_path f))) (Some text) None.

(** The same for a file that could not be loaded. *)
Definition reported_at (u : unicode) (pal : palette) (p : path) (contents : str) (r : srange) (m : str) (e : error) : Prop :=
  exists text, listing u pal contents r = Some text /\ e = throw pal m (Some (show_path p)) (Some text) None.

Section Loading.
Context (u : unicode) (pal : palette) (grapheme : str -> N -> str) (stem : str -> option str) (fs : files) (x : texts).
Let code := code_str pal.
(** The schema in file [p] has the import [im]; [text] shows where. *)
Definition has_import (p : path) (im : ximport) (text : str) : Prop :=
  exists contents ts s k, fs_read fs p = Some contents /\ tokenize u contents = LexOk ts /\ parse_loc u stem pal ts = XParseOk s /\
    In (k, im) (xs_imports s) /\ listing u pal contents (xi_range im) = Some text.
(** What is said about the file [p] if it or one of its imports cannot be loaded. *)
Inductive load_fault (p : path) : error -> Prop :=
| fault_main name : fs_main fs = Some name -> p = [name] -> fs_read fs p = None ->
    load_fault p (throw pal (txt "Unable to load " ++ code (show_path p) ++ txt ".") None None (Some (x_unreadable x p)))
| fault_file q im text : reachable u stem fs q -> has_import q im text -> fs_locate fs (removelast q) (xi_path im) = At p -> fs_read fs p = None ->
    load_fault p (throw pal (txt "Unable to load " ++ code (show_path p) ++ txt ".") (Some (show_path q)) (Some text) (Some (x_unreadable x p)))
| fault_lexical contents es le e : fs_read fs p = Some contents -> faults u pal (grapheme contents) 0 contents es -> In le es ->
    reported_at u pal p contents (xl_range le) (xl_message le) e -> load_fault p e
| fault_syntax contents ts es pe e : fs_read fs p = Some contents -> tokenize u contents = LexOk ts -> parse u stem ts = ParseErr es ->
    complaint u stem pal ts pe -> reported_at u pal p contents (xp_range pe) (xp_message pe) e -> load_fault p e
| fault_missing im text : has_import p im text -> fs_locate fs (removelast p) (xi_path im) = Missing ->
    load_fault p (throw pal (txt "Unable to load " ++ code (x_joined x (removelast p) (xi_path im)) ++ txt ".") (Some (show_path p)) (Some text)
      (Some (x_missing x (removelast p) (xi_path im))))
| fault_outside im text : has_import p im text -> fs_locate fs (removelast p) (xi_path im) = Outside ->
    load_fault p (throw pal (code (x_canonical x (removelast p) (xi_path im)) ++ txt " is not a descendant of " ++ code (x_base x) ++
      txt ", which is the base directory for this run.") (Some (show_path p)) (Some text) None).
(** The file can be read, and if it consists of tokens, they are a schema. *)
Definition grammatical (p : path) : Prop :=
  fs_read fs p <> None /\ forall contents ts es, fs_read fs p = Some contents -> tokenize u contents = LexOk ts -> parse u stem ts <> ParseErr es.
End Loading.

(** ** Several errors in one message *)
(** The last line has nothing but spaces and overlines (U+203E), like the end of a listing. *)
Definition ends_blank (s : str) : Prop :=
  exists a b, s = a ++ b /\ (a = [] \/ exists a', a = a' ++ [10]) /\ Forall (fun c => c = 32 \/ c = 8254) b.
(** The texts one after the other, with an empty line between them. *)
Inductive joined : list str -> str -> Prop :=
| joined_last d : joined [d] d
| joined_blank d ds t : ends_blank d -> joined ds t -> joined (d :: ds) (d ++ [10] ++ t)
| joined_text d ds t : ~ ends_blank d -> joined ds t -> joined (d :: ds) (d ++ [10; 10] ++ t).
Definition merged (u : unicode) (pal : palette) (es : list error) (text : str) : Prop :=
  exists t, joined (map (display pal) es) t /\ trimmed u t text.

(** ** Failing operations *)
Inductive failure (pal : palette) (x : texts) : effect -> error -> Prop :=
| failure_dir d : failure pal x (MakeDir d) (throw pal (txt "Unable to create " ++ code_str pal d ++ txt ".") None None (Some (x_failure x (MakeDir d))))
| failure_file f c : failure pal x (Write (ToFile f) c)
    (throw pal (txt "Unable to write " ++ code_str pal f ++ txt ".") None None (Some (x_failure x (Write (ToFile f) c))))
| failure_schema p c : failure pal x (Write (ToSchema p) c)
    (throw pal (txt "Unable to write file.") (Some (show_path p)) None (Some (x_failure x (Write (ToSchema p) c)))).
(** The operation [e] failed. Listing a schema is taken to succeed. *)
Definition fails (works : list effect -> effect -> bool) (before : list event) (e : effect) : Prop :=
  works (effects_of before) e = false /\ forall p, e <> ListSchema p.
(** The formatter found that some file is not formatted. *)
Definition mismatch (pal : palette) (x : texts) : error :=
  throw pal (txt "Formatting mismatch. Please run " ++ code_str pal (txt "typical format " ++ x_main x) ++ txt ".") None None None.
(** Colours are switched on by an escape character. *)
Definition palette_ok (pal : palette) : Prop :=
  match pal with None => True | Some f => exists s, f RedBold (txt "[Error]") = 27 :: s end.
