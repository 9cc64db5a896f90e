(** Model of the tree of modules in generated code and of the paths to types in it. Definitions only. *)
From Verif Require Export Schema Validator.

(** ** schema.rs 95-122: [relativize_namespace] *)

(** 101-112: the loop; the counter is the number of recursive calls. *)
Fixpoint common_components (a b : namespace) : nat :=
  match a, b with
  | x :: a', y :: b' => if ident_eqb x y then S (common_components a' b') else O
  | _, _ => O
  end.
(** 114-121: the rest of the namespace, and the number of [..] before it. *)
Definition relativize_namespace (namespace1 namespace2 : namespace) : namespace * nat :=
  let n := common_components namespace1 namespace2 in
  (skipn n namespace1, (length namespace2 - n)%nat).

(** ** The tree *)

(** generate_rust.rs 76-81, generate_typescript.rs 98-103: [Module]; [children] is a [BTreeMap]. *)
Inductive smodule := SModule (children : list (ident * smodule)) (schema : sschema).
Definition module_children (m : smodule) := let (c, _) := m in c.
Definition module_schema (m : smodule) := let (_, s) := m in s.
Definition empty_schema : sschema := mkSSchema [] [] [].

(** [BTreeMap::get_mut] followed by an update of the value found; [None] if there is none. *)
Fixpoint update_child (k : ident) (f : smodule -> smodule) (m : list (ident * smodule)) : option (list (ident * smodule)) :=
  match m with
  | [] => None
  | (k', v) :: m' =>
      match ident_cmp k k' with
      | Eq => Some ((k', f v) :: m')
      | _ => match update_child k f m' with Some m'' => Some ((k', v) :: m'') | None => None end
      end
  end.
(** generate_rust.rs 407-443, generate_typescript.rs 471-507: [insert_schema]. *)
Fixpoint insert_schema (ns : namespace) (schema : sschema) (m : smodule) : smodule :=
  match ns with
  | head :: rest =>
      match update_child head (insert_schema rest schema) (module_children m) with
      | Some children => SModule children (module_schema m)
      | None => SModule (fst (map_insert head (insert_schema rest schema (SModule [] empty_schema)) (module_children m)))
                        (module_schema m)
      end
  | [] => SModule (module_children m) schema
  end.
(** generate_rust.rs 108-121, generate_typescript.rs 130-143: the tree of all schemas. *)
Definition module_tree (schemas : list (namespace * sschema)) : smodule :=
  fold_left (fun m e => insert_schema (fst e) (snd e) m) schemas (SModule [] empty_schema).

(** ** Paths to types *)

(** The namespace of a reference: generate_rust.rs 1657-1662, generate_typescript.rs 1656-1661; [None] is a panic. *)
Definition reference_namespace (s : sschema) (ns : namespace) (import : option ident) : option namespace :=
  match type_namespace ns s import with Some (Some ns') => Some ns' | _ => None end.
(** generate_rust.rs 1656-1674 (in [write_type]) and 1769-1775 ([write_supers]): the segments of the path, which are
    written with [::] between them. The module names are those of [write_module], 446-472. *)
Definition rust_path (u : unicode) (s : sschema) (ns : namespace) (import : option ident) (name : ident) (x : suffix)
    : option (list str) :=
  match reference_namespace s ns import with
  | None => None
  | Some type_ns =>
      let (relative, ancestors) := relativize_namespace type_ns ns in
      Some (repeat (txt "super") ancestors ++ map (fun c => rust_name u c Snake None) relative ++
            [rust_name u name Pascal (Some x)])
  end.
(** What is needed from the top of the file is written with as many [super::] as there are levels of indentation, i.e.
    components of the namespace (generate_rust.rs 556, 570, 710 and so on; 446-472 keeps the two in step). *)
Definition rust_top_path (ns : namespace) (item : str) : list str := repeat (txt "super") (length ns) ++ [item].
(** generate_typescript.rs 1648-1669: [write_custom_type]; the segments are written with [.] between them. The
    namespace names are those of [write_module], 510-537. *)
Definition ts_path (u : unicode) (s : sschema) (ns : namespace) (import : option ident) (name : ident) (x : option suffix)
    : option (list str) :=
  match reference_namespace s ns import with
  | None => None
  | Some type_ns => Some (map (fun c => ts_name u c Pascal None) type_ns ++ [ts_name u name Pascal x])
  end.
(** generate_rust.rs 645-646, 700-701, 877-878 and so on: the local variable for a field. *)
Definition rust_local (u : unicode) (field : ident) : str := txt "_" ++ rust_name u field Snake None.
