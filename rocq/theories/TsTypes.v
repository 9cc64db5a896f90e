(** Which values the types of a generated TypeScript module have: the TypeScript handbook ("Everyday Types", "Object Types",
    "Namespaces") on the types of TsSyntax.v. A specification. *)
From Verif Require Export TsApi.

Section Program.
Context (prog : tmod).
Definition tdef_name (t : tdef) : str := match t with TdStruct name _ | TdChoice name _ => name end.
(** The types of a name in a namespace. *)
Definition types_of (x : str) (n : nspace) : list tdef :=
  filter (fun t => str_eqb x (tdef_name t)) (flat_map (fun m => match m with TMod _ ds => flat_map td_types ds end) (fst n)).
(** What a type name means in a scope: it is looked up from the innermost namespace to the top of the file; of [a.b.T], the
    first part is. *)
Definition find_type (sc : scope) (path : list str) : option (scope * tdef) :=
  match path with
  | [] => None
  | [x] =>
      outward (fun p =>
        match namespace_at prog p with
        | None => Some None
        | Some n => match types_of x n with [] => None | [t] => Some (Some (p, t)) | _ => Some None end
        end) None (rev sc)
  | x :: rest =>
      outward (fun p =>
        match namespace_at prog p with
        | None => Some None
        | Some n =>
            match member x n with
            | None => None
            | Some n' =>
                Some (match descend (removelast rest) n' with
                      | Some n'' => match types_of (last rest []) n'' with [t] => Some (p ++ x :: removelast rest, t) | _ => None end
                      | None => None
                      end)
            end
        end) None (rev sc)
  end.

(** [ts_has sc t m]: written in the namespace [sc], the type [t] has the value [m]; [h] are the arrays and buffers. An object
    has a type if it has the properties of the type. It may have others, unless [exact]. *)
Context (exact : bool) (h : heap).
Inductive ts_has : scope -> ttype -> jv -> Prop :=
| th_number sc n : ts_has sc (tt "number") (JvNum n)
| th_float sc bits : ts_has sc (tt "number") (JvFlt bits)
| th_bigint sc z : ts_has sc (tt "bigint") (JvBig z)
| th_boolean sc b : ts_has sc (tt "boolean") (JvBool b)
| th_string sc s : ts_has sc (tt "string") (JvText s)
| th_null sc : ts_has sc (tt "null") JvNull
| th_undefined sc : ts_has sc (tt "undefined") JvUndef
| th_literal sc s : ts_has sc (TtLit s) (JvText s)
| th_buffer sc r bs : find_type sc [txt "ArrayBuffer"] = None -> nth_error h r = Some (CellBuf bs) -> ts_has sc (tt "ArrayBuffer") (JvBuf r)
| th_error sc k : find_type sc [txt "Error"] = None -> ts_has sc (tt "Error") (JvError k)
| th_left sc a b m : ts_has sc a m -> ts_has sc (TtUnion a b) m
| th_right sc a b m : ts_has sc b m -> ts_has sc (TtUnion a b) m
| th_array sc t r ms : nth_error h r = Some (CellArr ms) -> Forall (ts_has sc t) ms -> ts_has sc (TtArray t) (JvArr r)
| th_object sc fields ps :
    Forall (fun f => exists v, lookup (fst f) ps = Some v /\ ts_has sc (snd f) v) fields ->
    (exact = true -> forall x, In x (map fst ps) -> In x (map fst fields)) ->
    ts_has sc (TtObj fields) (JvObj ps)
| th_struct sc p sc' name fields m : find_type sc p = Some (sc', TdStruct name fields) -> ts_has sc' (TtObj fields) m -> ts_has sc (TtPath p) m
| th_choice sc p sc' name cases c m : find_type sc p = Some (sc', TdChoice name cases) -> In c cases -> ts_has sc' (TtObj c) m ->
    ts_has sc (TtPath p) m.
End Program.

(** What the types do not say about an outgoing message: bigints are in the range of the type of their field, strings have no
    lone surrogates, arrays are not too long, and no case of a choice is named like a property that every object has. Cell 0
    is the buffer of [dataView64], which only the generated code has. *)
Section Ranges.
Context (u : unicode) (h : heap).
Inductive ts_ranged : nty -> jv -> Prop :=
| rg_unit m : ts_ranged NUnit m
| rg_bool m : ts_ranged NBool m
| rg_f64 bits : bits < 2 ^ 64 -> ts_ranged NF64 (JvFlt bits)
| rg_u64 n : n < 2 ^ 64 -> ts_ranged NU64 (JvBig (Z.of_N n))
| rg_s64 z : (- 2 ^ 63 <= z < 2 ^ 63)%Z -> ts_ranged NS64 (JvBig z)
| rg_string s : str_ok s -> ts_ranged NString (JvText s)
| rg_bytes r bs : r <> O -> nth_error h r = Some (CellBuf bs) -> bytes_ok bs -> ts_ranged NBytes (JvBuf r)
| rg_array t r ms : r <> O -> nth_error h r = Some (CellArr ms) -> lenN ms < 2 ^ 32 -> Forall (ts_ranged t) ms -> ts_ranged (NArray t) (JvArr r)
| rg_struct ns s name fs ps :
    Forall (fun f => forall m, lookup (tfield_name u (fst f)) ps = Some m -> m = JvUndef \/ ts_ranged (snd f) m) fs ->
    ts_ranged (NDecl ns s SkStruct name fs) (JvObj ps)
| rg_choice ns s name fs ps :
    Forall (fun f => js_inherited (tfield_name u (fst f)) = false) fs ->
    Forall (fun f => forall m, lookup (tfield_name u (fst f)) ps = Some m -> ts_ranged (snd f) m) fs ->
    (forall m, lookup (txt "$fallback") ps = Some m -> ts_ranged (NDecl ns s SkChoice name fs) m) ->
    ts_ranged (NDecl ns s SkChoice name fs) (JvObj ps).
End Ranges.
