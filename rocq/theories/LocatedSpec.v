(** Where the parts of a schema are in its file, and what is said about a file that is not a schema. A specification,
    independent of how the parser works. *)
From Verif Require Export Located ParseSpec.

(** The range from the start of the first token to the end of the last. *)
Definition covers (r : srange) (ts : list token) : Prop :=
  ts <> [] /\ r_start r = hd 0 (map tstart ts) /\ r_end r = last (map tend ts) 0.

(** ** Schemas: ParseSpec.v with the ranges *)
Inductive type_at : xty -> list token -> Prop :=
| ta_array r t a ts b : tvar a = TkLeftSquare -> type_at t ts -> tvar b = TkRightSquare -> covers r (a :: ts ++ [b]) ->
    type_at (XyArray r t) (a :: ts ++ [b])
| ta_leaf r t ts : (forall t', t <> SyArray t') -> type_tokens t (vars ts) -> covers r ts -> type_at (XyLeaf r t) ts.
Inductive annotation_at : xty -> list token -> Prop :=
| aa_none r : annotation_at (XyLeaf r SyUnit) []
| aa_some t a ts : tvar a = TkColon -> type_at t ts -> annotation_at t (a :: ts).
Inductive field_at : xfield -> list token -> Prop :=
| field_at_intro r c k n t i cs ks name ts is :
    comment_tokens c (vars cs) -> rule_tokens k (vars ks) -> tvar name = TkIdentifier n -> annotation_at t ts ->
    vars is = [TkEquals; TkInteger i] -> covers r (cs ++ ks ++ [name] ++ ts ++ is) ->
    field_at (mkXField r c k n t i) (cs ++ ks ++ [name] ++ ts ++ is).
Inductive many_at {A} (P : A -> list token -> Prop) : list A -> list token -> Prop :=
| many_at_nil : many_at P [] []
| many_at_cons x xs t ts : P x t -> many_at P xs ts -> many_at P (x :: xs) (t ++ ts).
Inductive decl_at : xdecl -> list token -> Prop :=
| decl_at_intro r c k n fs d cs hs fts ds close :
    comment_tokens c (vars cs) -> vars hs = [kind_token k; TkIdentifier n; TkLeftCurly] -> many_at field_at fs fts ->
    deleted_tokens d (vars ds) -> tvar close = TkRightCurly -> covers r (cs ++ hs ++ fts ++ ds ++ [close]) ->
    decl_at (mkXDecl r c k n fs d) (cs ++ hs ++ fts ++ ds ++ [close]).
Inductive import_at (u : unicode) (stem : str -> option str) : ident * ximport -> list token -> Prop :=
| import_at_intro n i ts : import_tokens u stem (n, bare_import i) (vars ts) -> covers (xi_range i) ts ->
    import_at u stem (n, i) ts.
Inductive schema_at (u : unicode) (stem : str -> option str) : xschema -> list token -> Prop :=
| schema_at_intro c listed stored ds ct it dt :
    schema_comment c ct (it ++ dt) ->
    many_at (import_at u stem) listed it -> Permutation listed stored ->
    same_imports (map bare_named listed) (map bare_named stored) ->
    many_at decl_at ds dt ->
    schema_at u stem (mkXSchema c stored ds) (ct ++ it ++ dt).

(** ** Complaints *)
(** [expects pal what v]: [what] describes the token [v]. *)
Inductive expects (pal : palette) : str -> tvariant -> Prop :=
| expects_symbol v : In v [TkEquals; TkLeftCurly; TkRightCurly; TkRightSquare] -> expects pal (code_str pal (token_text v)) v
| expects_type v : In v [TkBool; TkBytes; TkF64; TkS64; TkString; TkU64; TkUnit; TkLeftSquare] -> expects pal (txt "a type") v
| expects_name what n : In what [txt "a type"; txt "a field"; txt "the name of an import"; txt "a name for the import";
      txt "a name for the struct"; txt "a name for the choice"] -> expects pal what (TkIdentifier n)
| expects_index n : expects pal (txt "an index for the field") (TkInteger n)
| expects_path p : expects pal (txt "the path of a file to import") (TkPath p)
| expects_decl v : is_decl_token v -> expects pal (txt "a declaration") v.

(** The name of an import; U+FFFD if it has none. *)
Inductive import_named (u : unicode) (stem : str -> option str) : ident -> list token -> Prop :=
| named_as n p ts : vars ts = [TkImport; TkPath p; TkAs; TkIdentifier n] -> import_named u stem n ts
| named_file p s ts : vars ts = [TkImport; TkPath p] -> stem p = Some s -> import_named u stem (ident_from u s) ts
| named_not p ts : vars ts = [TkImport; TkPath p] -> stem p = None -> import_named u stem (ident_from u [65533]) ts.

(** [complaint u stem pal ts e]: [e] is about a token, the end of the file, an index after [deleted], or an import. *)
Inductive complaint (u : unicode) (stem : str -> option str) (pal : palette) (ts : list token) : ploc -> Prop :=
| complaint_token before t after what v : ts = before ++ t :: after -> expects pal what v ->
    complaint u stem pal ts (mkPLoc PeUnexpected (mkRange (tstart t) (tend t))
      (txt "Expected " ++ what ++ txt ", but encountered " ++ code_str pal (token_text (tvar t)) ++ txt "."))
| complaint_end before t what v : ts = before ++ [t] -> expects pal what v ->
    complaint u stem pal ts (mkPLoc PeUnexpected (mkRange (tend t) (tend t))
      (txt "Expected " ++ what ++ txt " at the end of the file."))
| complaint_deleted before t mid t' n after : ts = before ++ t :: mid ++ t' :: after ->
    tvar t = TkInteger n -> tvar t' = TkInteger n -> Forall (fun x => exists m, tvar x = TkInteger m) mid ->
    complaint u stem pal ts (mkPLoc PeDuplicateDeleted (mkRange (tstart t') (tend t'))
      (txt "Index " ++ code_str pal (print_number n) ++ txt " is already marked as deleted."))
| complaint_import before its mid its' after n n' r : ts = before ++ its ++ mid ++ its' ++ after ->
    import_named u stem n its -> import_named u stem n' its' -> ident_cmp n' n = Eq -> covers r its' ->
    complaint u stem pal ts (mkPLoc PeDuplicateImport r
      (txt "An import named " ++ code_str pal (original n') ++ txt " already exists in this file."))
| complaint_name before its after r p : ts = before ++ its ++ after -> vars its = [TkImport; TkPath p] -> stem p = None ->
    covers r its ->
    complaint u stem pal ts (mkPLoc PeNoName r (txt "Unable to infer a name for this import.")).
