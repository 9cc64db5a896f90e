(** Calling the public functions of a generated TypeScript program, and names that must not be hidden. A specification. *)
From Verif Require Export RustSpec LoadSpec TsText TsValue.

Section Names.
Context (u : unicode) (schemas : list (namespace * sschema)).
(** The namespaces around code at a place: those that are written around it, and those of the same names elsewhere, which
    are merged with them. None of them has a namespace of this name in it, except maybe the file itself. *)
Definition ts_unhidden (place : namespace) (top_too : bool) (name : str) : Prop :=
  forall a b, same_ns place (a ++ b) -> a <> [] \/ top_too = true -> ~ ts_has_namespace u (module_tree schemas) a name.

(** What typical does not check, and what the generated code depends on: every file is in some namespace; inside each
    declaration, the global objects can be reached, and so can the namespaces of the types that are mentioned. *)
Record ts_clear_names : Prop := mkClearNames {
  cn_placed : forall ns s, In (ns, s) schemas -> ns <> [];
  cn_globals : forall ns s d g, declared schemas ns s d -> In g ts_relied_on -> ts_unhidden (ns ++ [sd_name d]) true g;
  cn_types : forall ns s d f i n first rest, declared schemas ns s d -> In f (sd_fields d) -> mentions (sf_type f) i n ->
    ts_path u s ns i n None = Some (first :: rest) -> ts_unhidden (ns ++ [sd_name d]) false first }.

(** A simpler condition that suffices: no file, directory or declaration is named like one of the global objects, and
    nothing deeper is named like a file or directory at the top. *)
Record ts_distinct_names : Prop := mkDistinctNames {
  dn_placed : forall ns s, In (ns, s) schemas -> ns <> [];
  dn_globals : forall ns s i, In (ns, s) schemas -> In i (ns ++ map sd_name (ss_decls s)) -> ~ In (ts_name u i Pascal None) ts_relied_on;
  dn_types : forall ns s i ns' s' j, In (ns, s) schemas -> hd_error ns = Some i -> In (ns', s') schemas ->
    In j (tl ns' ++ map sd_name (ss_decls s')) -> ts_name u j Pascal None <> ts_name u i Pascal None }.
End Names.

(** ** Calling the public functions of a generated program

    [rounds] and [depth]: how often loops are run and how deep calls are nested before the interpreter gives up ([ExFuel]). A
    message is a JavaScript value, as [js_value] says. Code that uses the module names functions by their full path. *)
Section Api.
Context (rounds : nat) (u : unicode) (prog : tmod) (depth : nat) (ns : namespace) (d : sdecl).
Definition ts_call (f : str) (args : list jv) (h : heap) : jout jv :=
  match find_callee prelude_fns prog [] (CPath (map (fun c => ts_name u c Pascal None) ns ++ [ts_name u (sd_name d) Pascal None]) f) with
  | Some (sc, fn) => run_ts rounds prelude_fns prog depth sc fn args h
  | None => ExStuck
  end.
Definition ts_call_size (message : jv) : heap -> jout jv := ts_call (txt "size") [message].
Definition ts_call_serialize (message : jv) : heap -> jout jv := ts_call (txt "serialize") [message].
Definition ts_call_deserialize (bytes : jv) : heap -> jout jv := ts_call (txt "deserialize") [bytes].
End Api.
(** The module has been loaded: there is the buffer of [dataView64] (450 of generate_typescript.rs). *)
Definition ts_loaded (h : heap) : Prop := exists s8, nth_error h 0 = Some (CellBuf s8) /\ length s8 = 8%nat.
(** Nothing that was there has changed, but the buffer of [dataView64]. *)
Definition ts_kept (h h' : heap) : Prop :=
  forall r c, r <> O -> nth_error h r = Some c -> nth_error h' r = Some c.
(** What can be given to [deserialize] ([Deserializable] in the generated code), and the bytes it stands for: an
    [ArrayBuffer], or a view or typed array of a part of one. *)
Inductive ts_source (h : heap) : jv -> view -> Prop :=
| ts_array_buffer r bs : r <> O -> nth_error h r = Some (CellBuf bs) -> ts_source h (JvBuf r) (whole bs)
| ts_data_view r off len bs : r <> O -> nth_error h r = Some (CellBuf bs) -> off + len <= lenN bs ->
    ts_source h (JvView r off len) (mkView bs off len)
| ts_typed_array r off len bs : r <> O -> nth_error h r = Some (CellBuf bs) -> off + len <= lenN bs ->
    ts_source h (JvBytes r off len) (mkView bs off len).
(** A view of bytes that lie somewhere in a buffer. *)
Definition ts_view_of (bs : bytes) (w : view) : Prop :=
  exists pre post, bytes_ok pre /\ bytes_ok post /\ w = mkView (pre ++ bs ++ post) (lenN pre) (lenN bs).
(** What typical does not check about the names of files and declarations, as [ts_distinct_names]. *)
Record ts_distinct_files (u : unicode) (stem : str -> option str) (fs : files) : Prop := mkDistinctFiles {
  df_globals : forall p contents s i, reachable u stem fs p -> reads u stem fs p contents s ->
    In i (namespace_of u p ++ map sd_name (ss_decls s)) -> ~ In (ts_name u i Pascal None) ts_relied_on;
  df_types : forall p q contents s i j, reachable u stem fs p -> reachable u stem fs q -> reads u stem fs q contents s ->
    hd_error (namespace_of u p) = Some i -> In j (tl (namespace_of u q) ++ map sd_name (ss_decls s)) ->
    ts_name u j Pascal None <> ts_name u i Pascal None }.
