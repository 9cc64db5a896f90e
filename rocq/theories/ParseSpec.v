(** The grammar of schema files, as a relation between syntax trees and token sequences. A specification. *)
From Coq Require Export Sorting.Permutation Sorting.Sorted.
From Verif Require Export Parser.

Inductive type_tokens : sty -> list tvariant -> Prop :=
| tt_array t ts : type_tokens t ts -> type_tokens (SyArray t) (TkLeftSquare :: ts ++ [TkRightSquare])
| tt_bool : type_tokens SyBool [TkBool]
| tt_bytes : type_tokens SyBytes [TkBytes]
| tt_f64 : type_tokens SyF64 [TkF64]
| tt_s64 : type_tokens SyS64 [TkS64]
| tt_string : type_tokens SyString [TkString]
| tt_u64 : type_tokens SyU64 [TkU64]
| tt_unit : type_tokens SyUnit [TkUnit]
| tt_local n : type_tokens (SyCustom None n) [TkIdentifier n]
| tt_imported i n : type_tokens (SyCustom (Some i) n) [TkIdentifier i; TkDot; TkIdentifier n].

(** A missing comment is the same as an empty one. *)
Inductive comment_tokens : list str -> list tvariant -> Prop :=
| ct_none : comment_tokens [] []
| ct_some ps : comment_tokens ps [TkComment ps].
Inductive rule_tokens : rule -> list tvariant -> Prop :=
| rt_asymmetric : rule_tokens Asymmetric [TkAsymmetric]
| rt_optional : rule_tokens Optional [TkOptional]
| rt_required : rule_tokens Required [].
(** A missing type is [Unit]. *)
Inductive annotation_tokens : sty -> list tvariant -> Prop :=
| at_none : annotation_tokens SyUnit []
| at_some t ts : type_tokens t ts -> annotation_tokens t (TkColon :: ts).
Inductive field_tokens : sfield -> list tvariant -> Prop :=
| field_tokens_intro c r n t i cs rs ts :
    comment_tokens c cs -> rule_tokens r rs -> annotation_tokens t ts ->
    field_tokens (mkSField c r n t i) (cs ++ rs ++ [TkIdentifier n] ++ ts ++ [TkEquals; TkInteger i]).
(** Deleted indices: any order, no repetitions; the tree holds them in increasing order. *)
Inductive deleted_tokens : list N -> list tvariant -> Prop :=
| dt_none : deleted_tokens [] []
| dt_some d ns : NoDup ns -> Permutation ns d -> StronglySorted N.lt d ->
    deleted_tokens d (TkDeleted :: map TkInteger ns).
Inductive many {A} (P : A -> list tvariant -> Prop) : list A -> list tvariant -> Prop :=
| many_nil : many P [] []
| many_cons x xs t ts : P x t -> many P xs ts -> many P (x :: xs) (t ++ ts).
Definition kind_token (k : skind) : tvariant := match k with SkStruct => TkStruct | SkChoice => TkChoice end.
Inductive decl_tokens : sdecl -> list tvariant -> Prop :=
| decl_tokens_intro c k n fs d cs fts ds :
    comment_tokens c cs -> many field_tokens fs fts -> deleted_tokens d ds ->
    decl_tokens (mkSDecl c k n fs d)
      (cs ++ [kind_token k; TkIdentifier n; TkLeftCurly] ++ fts ++ ds ++ [TkRightCurly]).
(** An import without a name is named after its file. *)
Inductive import_tokens (u : unicode) (stem : str -> option str) : ident * simport -> list tvariant -> Prop :=
| it_inferred p s : stem p = Some s ->
    import_tokens u stem (ident_from u s, mkSImport p None) [TkImport; TkPath p]
| it_named p n : import_tokens u stem (n, mkSImport p None) [TkImport; TkPath p; TkAs; TkIdentifier n].

(** The imports, with different names, in any order; the tree holds them in increasing order of their names. *)
Definition same_imports (listed stored : list (ident * simport)) : Prop :=
  ForallOrdPairs (fun a b => ident_cmp (fst a) (fst b) <> Eq) listed /\
  Permutation listed stored /\
  StronglySorted (fun a b => ident_cmp (fst a) (fst b) = Lt) stored.

Definition vars (l : list token) : list tvariant := map tvar l.
Definition is_decl_token (v : tvariant) : Prop := v = TkStruct \/ v = TkChoice.
(** A leading comment belongs to the declaration after it if that starts right on the next line, otherwise to
    the schema. *)
Definition belongs_to_next (t : token) (rest : list token) : Prop :=
  exists t' rest', rest = t' :: rest' /\ is_decl_token (tvar t') /\ tstart t' <= tend t + 1.
Inductive schema_comment : list str -> list token -> list token -> Prop :=
| sc_some ps t rest : tvar t = TkComment ps -> ~ belongs_to_next t rest -> schema_comment ps [t] rest
| sc_none rest :
    (forall t rest' ps, rest = t :: rest' -> tvar t = TkComment ps -> belongs_to_next t rest') ->
    schema_comment [] [] rest.

Inductive schema_grammar (u : unicode) (stem : str -> option str) : sschema -> list token -> Prop :=
| schema_grammar_intro c listed stored ds ct it dt :
    schema_comment c ct (it ++ dt) ->
    many (import_tokens u stem) listed (vars it) -> same_imports listed stored ->
    many decl_tokens ds (vars dt) ->
    schema_grammar u stem (mkSSchema c stored ds) (ct ++ it ++ dt).
