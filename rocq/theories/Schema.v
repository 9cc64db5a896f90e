(** Model of the schema syntax trees of /repo/src/schema.rs 18-98. Definitions only. Source ranges, which only
    serve error messages, are left out. *)
From Verif Require Export Identifier Types.

(** schema.rs 73-84: [TypeVariant] (and [Type] of 67-71, which adds a source range). *)
Inductive sty :=
| SyArray (t : sty) | SyBool | SyBytes | SyCustom (import : option ident) (name : ident)
| SyF64 | SyS64 | SyString | SyU64 | SyUnit.

(** schema.rs 50-58: [Field]; [Rule] is in Types.v. *)
Record sfield := mkSField { sf_comment : list str; sf_rule : rule; sf_name : ident; sf_type : sty; sf_index : N }.

(** schema.rs 44-48: [DeclarationVariant]. *)
Inductive skind := SkStruct | SkChoice.

(** schema.rs 34-42: [Declaration]; [deleted] is a [BTreeSet], i.e. increasing. *)
Record sdecl := mkSDecl {
  sd_comment : list str; sd_kind : skind; sd_name : ident; sd_fields : list sfield; sd_deleted : list N }.

(** schema.rs 86-93: [Namespace]. *)
Definition namespace := list ident.

(** schema.rs 27-32: [Import]. *)
Record simport := mkSImport { si_path : str; si_namespace : option namespace }.

(** schema.rs 20-25: [Schema]; [imports] is a [BTreeMap], i.e. a list of pairs with increasing keys. *)
Record sschema := mkSSchema {
  ss_comment : list str; ss_imports : list (ident * simport); ss_decls : list sdecl }.

(** [BTreeMap::insert]: the new map, and whether the key was present. An existing key keeps its old spelling. *)
Fixpoint map_insert {V} (k : ident) (v : V) (m : list (ident * V)) : list (ident * V) * bool :=
  match m with
  | [] => ([(k, v)], false)
  | (k', v') :: m' =>
      match ident_cmp k k' with
      | Lt => ((k, v) :: m, false)
      | Eq => ((k', v) :: m', true)
      | Gt => let (m'', b) := map_insert k v m' in ((k', v') :: m'', b)
      end
  end.
(** [BTreeMap::get]. *)
Fixpoint map_get {V} (k : ident) (m : list (ident * V)) : option V :=
  match m with
  | [] => None
  | (k', v) :: m' => match ident_cmp k k' with Eq => Some v | _ => map_get k m' end
  end.
(** [BTreeSet<usize>::insert]: the new set, and whether the element was present (Rust returns the negation). *)
Fixpoint set_insert (n : N) (s : list N) : list N * bool :=
  match s with
  | [] => ([n], false)
  | m :: s' => if n <? m then (n :: s, false) else if n =? m then (s, true)
               else let (s'', b) := set_insert n s' in (m :: s'', b)
  end.
