(** What relative namespaces and the tree of modules are for. A specification. *)
From Verif Require Export IdentSpec ModuleTree ValidSpec.

(** Where one gets from [here] by going up [ups] times and then down [path]. *)
Definition walk (here : namespace) (ups : nat) (path : namespace) : namespace :=
  firstn (length here - ups) here ++ path.

(** The module at a path of children holds a schema. *)
Inductive holds : smodule -> namespace -> sschema -> Prop :=
| holds_here children s : holds (SModule children s) [] s
| holds_below children s0 k m ns s : In (k, m) children -> holds m ns s -> holds (SModule children s0) (k :: ns) s.

(** Rust strings are sequences of scalar values; so are the texts that identifiers compare by. *)
Definition text_namespace (ns : namespace) : Prop := Forall (fun i => str_ok (snake_case i)) ns.

(** A namespace that lies on the way to another one. *)
Definition above (a b : namespace) : Prop := exists pre rest, b = pre ++ rest /\ rest <> [] /\ same_ns a pre.

(** ** What a path in generated code means *)
Section Paths.
Context (u : unicode) (tree : smodule).
Definition module_exists (ns : namespace) : Prop := exists s, holds tree ns s.

(** The Rust reference, "Paths": the path, used in the module [here], names the item for direction [x] generated for
    the declaration [d] of module [there]. *)
Inductive rust_resolves : namespace -> list str -> namespace -> sdecl -> suffix -> Prop :=
| rust_super ns k path there d x : rust_resolves ns path there d x -> rust_resolves (ns ++ [k]) (txt "super" :: path) there d x
| rust_child ns k path there d x : module_exists (ns ++ [k]) -> rust_resolves (ns ++ [k]) path there d x ->
    rust_resolves ns (rust_name u k Snake None :: path) there d x
| rust_item ns s d x : holds tree ns s -> In d (ss_decls s) ->
    rust_resolves ns [rust_name u (sd_name d) Pascal (Some x)] ns d x.
(** The path names something at the top of the file. *)
Inductive rust_resolves_top (item : str) : namespace -> list str -> Prop :=
| rust_at_top : rust_resolves_top item [] [item]
| rust_top_super ns k path : rust_resolves_top item ns path -> rust_resolves_top item (ns ++ [k]) (txt "super" :: path).

(** TypeScript: a path after its first segment. Without suffix it names the namespace of the functions of the
    declaration. *)
Inductive ts_members : namespace -> list str -> namespace -> sdecl -> option suffix -> Prop :=
| ts_child ns k path there d x : module_exists (ns ++ [k]) -> ts_members (ns ++ [k]) path there d x ->
    ts_members ns (ts_name u k Pascal None :: path) there d x
| ts_item ns s d x : holds tree ns s -> In d (ss_decls s) ->
    ts_members ns [ts_name u (sd_name d) Pascal x] ns d x.
(** The module [ns] has a namespace of that name in it: that of a file or directory, or the one that holds the functions
    of a declaration (generate_typescript.rs 617-621, 1011-1014). *)
Definition ts_has_namespace (ns : namespace) (name : str) : Prop :=
  (exists k, module_exists (ns ++ [k]) /\ ts_name u k Pascal None = name) \/
  (exists s d, holds tree ns s /\ In d (ss_decls s) /\ ts_name u (sd_name d) Pascal None = name).
(** The first segment is looked up in the innermost enclosing namespace that has one of this name. *)
Definition ts_resolves (here : namespace) (path : list str) (there : namespace) (d : sdecl) (x : option suffix) : Prop :=
  exists first rest outer inner k, path = first :: rest /\ here = outer ++ inner /\
    (forall a b, inner = a ++ b -> a <> [] -> ~ ts_has_namespace (outer ++ a) first) /\
    ts_name u k Pascal None = first /\ module_exists (outer ++ [k]) /\ ts_members (outer ++ [k]) rest there d x.
End Paths.

(** A name made of ASCII letters, digits and underscores, whose words start with letters. *)
Definition good_ident (u : unicode) (i : ident) : Prop :=
  i = ident_from u (original i) /\ ident_chars (original i) /\ words_start_with_letters (original i).
Definition good_file (u : unicode) (ns : namespace) (s : sschema) : Prop :=
  Forall (good_ident u) ns /\
  (forall d, In d (ss_decls s) -> good_ident u (sd_name d)) /\
  (forall d f i n, In d (ss_decls s) -> In f (sd_fields d) -> mentions (sf_type f) i n -> good_ident u n) /\
  (forall k im ns', In (k, im) (ss_imports s) -> si_namespace im = Some ns' -> Forall (good_ident u) ns').

(** Names that the generated code relies on: of the Rust prelude and of the items at the top of the file, in the
    namespace of types ... *)
Definition rust_relied_on : list str := map txt
  ["BufRead"; "Box"; "Clone"; "Debug"; "Deserialize"; "Err"; "Error"; "ErrorKind"; "From"; "None"; "Ok"; "Option"; "Result";
   "Self"; "Serialize"; "Some"; "String"; "T"; "Vec"; "Write"; "bool"; "f64"; "i64"; "io"; "std"; "str"; "u32"; "u64"; "u8"; "usize"]%string.
(** ... and the global objects of TypeScript. *)
Definition ts_relied_on : list str := map txt
  ["Array"; "ArrayBuffer"; "BigInt"; "DataView"; "Error"; "Number"; "Object"; "RangeError"; "TextDecoder"; "TextEncoder"; "Uint8Array"]%string.
(** Inside the module [here], a global object can be reached by its name. *)
Definition ts_reaches_global (u : unicode) (tree : smodule) (here : namespace) (name : str) : Prop :=
  forall a b, here = a ++ b -> ~ ts_has_namespace u tree a name.
(** At the top of the generated Rust file, a name means what it means in the prelude or in the [use] declarations: no
    module has that name. *)
Definition rust_reaches (u : unicode) (tree : smodule) (name : str) : Prop :=
  forall k, module_exists tree [k] -> rust_name u k Snake None <> name.
