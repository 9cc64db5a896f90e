(** The values of the generated Rust types: how a message (Types.v) looks as a value of the types that RustGen.v writes
    down. A specification: nothing here depends on the code of the generated functions. *)
From Verif Require Export RustGen RustSem.

(** Type trees with names: each declaration with the namespace and the schema it is in, and the trees of its fields. *)
Inductive nty :=
| NUnit | NF64 | NU64 | NS64 | NBool | NBytes | NString
| NArray (t : nty)
| NDecl (ns : namespace) (s : sschema) (k : skind) (name : ident) (fs : list (sfield * nty)).

Definition decl_type (k : skind) (fs : list (field_of ty)) : ty := match k with SkStruct => TStruct fs | SkChoice => TChoice fs end.
(** Without the names. *)
Fixpoint erase (t : nty) : ty :=
  match t with
  | NUnit => TUnit | NF64 => TF64 | NU64 => TU64 | NS64 => TS64 | NBool => TBool | NBytes => TBytes | NString => TString
  | NArray t => TArray (erase t)
  | NDecl _ _ k _ fs => decl_type k (map (fun f => mkF (sf_index (fst f)) (sf_rule (fst f)) (erase (snd f))) fs)
  end.

(** The field with an index. *)
Fixpoint named_field (i : N) (fs : list (sfield * nty)) : option (sfield * nty) :=
  match fs with [] => None | f :: fs' => if sf_index (fst f) =? i then Some f else named_field i fs' end.

Section Values.
Context (u : unicode).
(** The path of modules for a namespace. *)
Definition mods (ns : namespace) : list str := map (fun c => rust_name u c Snake None) ns.
Definition direction (d : dir) : suffix := match d with DOut => SOut | DIn => SIn end.

(** generate_rust.rs 1420-1562: the types. A field of a struct is an [Option] unless it is always present; a case of a
    choice has its payload, unless that is [()], and its fallback, if it has one. *)
Definition slot (present : bool) (o : option rv) : rv :=
  if present then match o with Some v => v | None => RvUnit end else RvOpt o.
Fixpoint embed (d : dir) (v : val) (t : nty) {struct v} : rv :=
  match v with
  | VUnit => RvUnit
  | VF64 b => RvF64 b
  | VU64 n => RvInt n
  | VS64 z => RvI64 z
  | VBool b => RvBool b
  | VBytes bs => RvBytes bs
  | VString s => RvString s
  | VUnits n => RvUnits n
  | VArr vs => match t with NArray e => RvVec (map (fun v => embed d v e) vs) | _ => RvUnit end
  | VStruct ovs =>
      match t with
      | NDecl ns _ _ name fs =>
          RvStruct (mods ns, type_name u name (direction d))
            (map2 (fun ov f => (field_name u (fst f),
               slot (always_present d (sf_rule (fst f))) (match ov with Some v => Some (embed d v (snd f)) | None => None end))) ovs fs)
      | _ => RvUnit
      end
  | VChoice i p fb =>
      match t with
      | NDecl ns _ _ name fs =>
          match named_field i fs with
          | Some f =>
              RvEnum (mods ns, type_name u name (direction d)) (variant_name u (fst f))
                ((if is_unit_sty (sf_type (fst f)) then [] else [embed d p (snd f)]) ++
                 match fb with Some v' => [embed d v' t] | None => [] end)
          | None => RvUnit
          end
      | _ => RvUnit
      end
  end.

(** The same for atlases (RustCodec.v). *)
Fixpoint embed_atlas (a : atlas) (t : nty) {struct a} : rv :=
  match a with
  | ASize n => RvInt n
  | AArr n l => match t with NArray e => RvPair (RvInt n) (RvVec (map (fun a => embed_atlas a e) l)) | _ => RvUnit end
  | AStruct n l =>
      match t with
      | NDecl ns _ _ name fs =>
          RvStruct (mods ns, type_name u name SAtlas)
            ((txt "_size", RvInt n) ::
             map2 (fun oa f => (field_name u (fst f),
               slot (always_present DOut (sf_rule (fst f))) (match oa with Some a => Some (embed_atlas a (snd f)) | None => None end))) l fs)
      | _ => RvUnit
      end
  | AChoice i n pa fa =>
      match t with
      | NDecl ns _ _ name fs =>
          match named_field i fs with
          | Some f =>
              RvEnum (mods ns, type_name u name SAtlas) (variant_name u (fst f))
                ([RvInt n; embed_atlas pa (snd f)] ++ match fa with Some a' => [embed_atlas a' t] | None => [] end)
          | None => RvUnit
          end
      | _ => RvUnit
      end
  end.
End Values.

(** [awt a t]: [a] is a value of the atlas type for [t] (generate_rust.rs 1608-1718). *)
Fixpoint awt (a : atlas) (t : ty) {struct a} : Prop :=
  match t with
  | TArray e =>
      if sized_element e then match a with AArr _ l => allP (fun a => awt a e) l | _ => False end
      else match a with ASize _ => True | _ => False end
  | TStruct fs =>
      match a with
      | AStruct _ l =>
          all2P (fun oa f => match oa with Some a => awt a (f_type f) | None => always_present DOut (f_rule f) = false end) l fs
      | _ => False
      end
  | TChoice fs =>
      match a with
      | AChoice i _ pa fa =>
          match find_field i fs with
          | None => False
          | Some f =>
              awt pa (f_type f) /\
              match fa with
              | Some a' => has_fallback DOut (f_rule f) = true /\ awt a' t
              | None => has_fallback DOut (f_rule f) = false
              end
          end
      | _ => False
      end
  | _ => match a with ASize _ => True | _ => False end
  end.

(** How deep calls are nested while a message is measured, written or converted. *)
Fixpoint vdepth (v : val) : nat :=
  match v with
  | VArr vs => fold_right Nat.max O (map vdepth vs)
  | VStruct ovs => S (fold_right Nat.max O (map (fun ov => match ov with Some v => vdepth v | None => O end) ovs))
  | VChoice _ p fb => S (Nat.max (vdepth p) (match fb with Some v => vdepth v | None => O end))
  | _ => O
  end.

(** ** What the program has to contain *)
Section Links.
Context (u : unicode) (prog : rmod).
(** The functions of a declaration can be found, and its names can be told apart. *)
Record installed (ns : namespace) (s : sschema) (k : skind) (name : ident) (fields : list sfield) : Prop := mkInstalled {
  in_atlas : method prog (mods u ns, type_name u name SOut) (txt "atlas") =
    Some (match k with SkStruct => struct_atlas u (length ns) name fields | SkChoice => choice_atlas u (length ns) name fields end);
  in_serialize : method prog (mods u ns, type_name u name SOut) (txt "serialize_with_atlas") =
    Some (match k with SkStruct => struct_ser u (length ns) name fields | SkChoice => choice_ser u (length ns) name fields end);
  in_deserialize : method prog (mods u ns, type_name u name SIn) (txt "deserialize_from_reader_ref") =
    Some (match k with SkStruct => struct_deser u ns s (length ns) name fields | SkChoice => choice_deser u ns s (length ns) name fields end);
  in_size : method prog (mods u ns, type_name u name SAtlas) (txt "size") =
    Some (match k with SkStruct => struct_size | SkChoice => choice_size u name fields end);
  in_from : conversion prog (mods u ns, type_name u name SOut) =
    Some (type_name u name SIn, match k with SkStruct => struct_from u name fields | SkChoice => choice_from u name fields end);
  in_fields : NoDup (txt "_size" :: map (field_name u) fields);
  in_locals : NoDup (map (local_name u) fields);
  in_variants : NoDup (map (variant_name u) fields);
  in_indices : NoDup (map sf_index fields) }.

(** A type, as it is written in schema [s] of namespace [ns], stands for a tree; the references in it lead to the
    declarations of the tree. *)
Fixpoint linked (ns : namespace) (s : sschema) (t : sty) (nt : nty) {struct nt} : Prop :=
  match nt with
  | NUnit => t = SyUnit | NF64 => t = SyF64 | NU64 => t = SyU64 | NS64 => t = SyS64 | NBool => t = SyBool
  | NBytes => t = SyBytes | NString => t = SyString
  | NArray nt' => exists t', t = SyArray t' /\ linked ns s t' nt'
  | NDecl ns2 s2 k name fs =>
      (exists i n, t = SyCustom i n /\
         forall self, deserializer prog (mods u ns) self (type_path u ns s i n SIn) = Some (mods u ns2, type_name u name SIn)) /\
      installed ns2 s2 k name (map fst fs) /\ allP (fun f => linked ns2 s2 (sf_type (fst f)) (snd f)) fs
  end.
End Links.
