(** What a valid set of schemas is, and which type tree a declaration stands for. A specification. *)
From Coq Require Export Relations.Relation_Operators Sorting.Sorted.
From Verif Require Export Validator Types.

(** Names and namespaces are the same when they compare equal. *)
Definition same_ident (a b : ident) : Prop := ident_eqb a b = true.
Definition same_ns (a b : namespace) : Prop := Forall2 same_ident a b.
Definition same_q (a b : qname) : Prop := same_ns (fst a) (fst b) /\ same_ident (snd a) (snd b).

(** The user-defined types a type mentions. *)
Inductive mentions : sty -> option ident -> ident -> Prop :=
| mentions_array t i n : mentions t i n -> mentions (SyArray t) i n
| mentions_custom i n : mentions (SyCustom i n) i n.

Section Schemas.
Context (schemas : list (namespace * sschema)).

(** File [s] of namespace [ns] declares [d]. *)
Definition declared (ns : namespace) (s : sschema) (d : sdecl) : Prop := In (ns, s) schemas /\ In d (ss_decls s).
(** Where the types of an import come from. *)
Inductive leads_to (ns : namespace) (s : sschema) : option ident -> namespace -> Prop :=
| leads_local : leads_to ns s None ns
| leads_import i k im ns' : In (k, im) (ss_imports s) -> ident_cmp i k = Eq -> si_namespace im = Some ns' ->
    leads_to ns s (Some i) ns'.
(** A field of declaration [d] has a type that mentions the type [q]. *)
Definition decl_refers (ns : namespace) (s : sschema) (d : sdecl) (q : qname) : Prop :=
  exists f i n ns', In f (sd_fields d) /\ mentions (sf_type f) i n /\ leads_to ns s i ns' /\ same_q (ns', n) q.
(** A type refers to another one. *)
Definition refers (q q' : qname) : Prop :=
  exists ns s d, declared ns s d /\ same_q (ns, sd_name d) q /\ decl_refers ns s d q'.
Definition cyclic (q : qname) : Prop := clos_trans qname refers q q.

Definition all_distinct (l : list ident) : Prop := ForallOrdPairs (fun a b => ~ same_ident a b) l.
Definition field_indices (d : sdecl) : list N := map sf_index (sd_fields d).
Record valid_decl (ns : namespace) (s : sschema) (d : sdecl) : Prop := mkValidDecl {
  vd_names : all_distinct (map sf_name (sd_fields d));
  vd_indices : NoDup (field_indices d);
  vd_deleted : forall i, In i (field_indices d) -> ~ In i (sd_deleted d);
  vd_max : forall i, In i (field_indices d) -> i <= 2 ^ 62 - 1;
  (** Used and deleted indices are exactly those below some bound. *)
  vd_no_gaps : exists n, forall i, (In i (field_indices d) \/ In i (sd_deleted d)) <-> i < n;
  vd_resolves : forall f i n, In f (sd_fields d) -> mentions (sf_type f) i n ->
    exists ns' ns2 s2 d2, leads_to ns s i ns' /\ declared ns2 s2 d2 /\ same_q (ns2, sd_name d2) (ns', n) }.
Definition valid : Prop :=
  (forall ns s, In (ns, s) schemas -> all_distinct (map sd_name (ss_decls s))) /\
  (forall ns s d, declared ns s d -> valid_decl ns s d).

(** What is known of schemas that have been loaded: they are a map, so are their imports, whose namespaces have been
    filled in; deleted indices are a set. *)
Definition loaded : Prop :=
  ForallOrdPairs (fun a b => ~ same_ns (fst a) (fst b)) schemas /\
  (forall ns s, In (ns, s) schemas ->
     StronglySorted (fun a b => ident_cmp (fst a) (fst b) = Lt) (ss_imports s) /\
     Forall (fun e => si_namespace (snd e) <> None) (ss_imports s)) /\
  (forall ns s d, declared ns s d -> NoDup (sd_deleted d)).

(** A path of references from a type to itself, possibly after some other types. *)
Inductive chain : list qname -> Prop :=
| chain_one q : chain [q]
| chain_more p q q' : chain (p ++ [q]) -> refers q q' -> chain ((p ++ [q]) ++ [q']).
Definition shows_cycle (p : list qname) : Prop :=
  exists pre q mid q', p = pre ++ q :: mid ++ [q'] /\ chain p /\ same_q q q'.

(** ** Defects other than cycles, each with the error that names it *)
Inductive type_defect (ns : namespace) (s : sschema) (t : sty) : verr -> Prop :=
| no_such_import i n : mentions t (Some i) n -> (forall ns', ~ leads_to ns s (Some i) ns') ->
    type_defect ns s t (VNoImport i)
| no_such_type i n ns' : mentions t i n -> leads_to ns s i ns' ->
    (forall ns2 s2 d2, declared ns2 s2 d2 -> ~ same_q (ns2, sd_name d2) (ns', n)) -> type_defect ns s t (VNoType n).
Inductive decl_defect (ns : namespace) (s : sschema) (d : sdecl) : verr -> Prop :=
| repeated_field before f after g : sd_fields d = before ++ f :: after -> In g before -> same_ident (sf_name f) (sf_name g) ->
    decl_defect ns s d (VDupField (sf_name f))
| repeated_index before f after : sd_fields d = before ++ f :: after -> In (sf_index f) (map sf_index before) ->
    decl_defect ns s d (VDupIndex (sf_index f))
| reserved_index i : In i (field_indices d) -> In i (sd_deleted d) -> decl_defect ns s d (VDeleted i)
| large_index i : In i (field_indices d) -> 2 ^ 62 - 1 < i -> decl_defect ns s d (VTooLarge i)
| bad_type f e : In f (sd_fields d) -> type_defect ns s (sf_type f) e -> decl_defect ns s d e
  (** An index below the number of used and deleted ones, itself neither. *)
| gap used i : NoDup used -> (forall j, In j used <-> In j (field_indices d)) ->
    i < N.of_nat (length used + length (sd_deleted d)) -> ~ In i (field_indices d) -> ~ In i (sd_deleted d) ->
    decl_defect ns s d (VGap i).
Inductive defect : verr -> Prop :=
| repeated_declaration ns s before d after d' : In (ns, s) schemas -> ss_decls s = before ++ d :: after ->
    In d' before -> same_ident (sd_name d) (sd_name d') -> defect (VDupDecl (sd_name d))
| bad_declaration ns s d e : declared ns s d -> decl_defect ns s d e -> defect e.

(** ** Type trees *)
Definition declaration_type (k : skind) (fs : list (field_of ty)) : ty :=
  match k with SkStruct => TStruct fs | SkChoice => TChoice fs end.
Inductive denotes : namespace -> sschema -> sty -> ty -> Prop :=
| dn_array ns s t T : denotes ns s t T -> denotes ns s (SyArray t) (TArray T)
| dn_bool ns s : denotes ns s SyBool TBool
| dn_bytes ns s : denotes ns s SyBytes TBytes
| dn_f64 ns s : denotes ns s SyF64 TF64
| dn_s64 ns s : denotes ns s SyS64 TS64
| dn_string ns s : denotes ns s SyString TString
| dn_u64 ns s : denotes ns s SyU64 TU64
| dn_unit ns s : denotes ns s SyUnit TUnit
| dn_custom ns s i n ns' ns2 s2 d2 fs : leads_to ns s i ns' -> declared ns2 s2 d2 -> same_q (ns2, sd_name d2) (ns', n) ->
    denotes_fields ns2 s2 (sd_fields d2) fs ->
    denotes ns s (SyCustom i n) (declaration_type (sd_kind d2) fs)
with denotes_fields : namespace -> sschema -> list sfield -> list (field_of ty) -> Prop :=
| dnf_nil ns s : denotes_fields ns s [] []
| dnf_cons ns s f fs T Ts : denotes ns s (sf_type f) T -> denotes_fields ns s fs Ts ->
    denotes_fields ns s (f :: fs) (mkF (sf_index f) (sf_rule f) T :: Ts).
(** The type tree of a declaration. *)
Definition decl_denotes (ns : namespace) (s : sschema) (d : sdecl) (T : ty) : Prop :=
  exists fs, denotes_fields ns s (sd_fields d) fs /\ T = declaration_type (sd_kind d) fs.
End Schemas.
