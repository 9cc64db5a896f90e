(** The values of the generated TypeScript types: how a message (Types.v) looks as a JavaScript value. A specification:
    what a value looks like does not depend on the code of the generated functions. *)
From Verif Require Export RustValue.
From Verif Require Export TsText TsSem TsEval.

Section Values.
Context (u : unicode).

(** [js_value d h lo v t m]: [m] is the JavaScript value for the message [v] of type [t], with the arrays and buffers of the
    heap [h]; none of them is in a cell below [lo].

    A number is any number with these bits; [Unit[]] has that many [null]s. A struct has a property for each field
    ([undefined]: absent). An outgoing choice has the property of its case, and not those of the others; an incoming one has
    just [$field], the property of the case and [$fallback], if there is one. *)
Fixpoint js_value (d : dir) (h : heap) (lo : nat) (v : val) (t : nty) (m : jv) {struct v} : Prop :=
  match v with
  | VUnit => m = JvNull
  | VF64 b => m = JvFlt b \/ b = 0 /\ m = JvNum 0
  | VU64 n => m = JvBig (Z.of_N n)
  | VS64 z => m = JvBig z
  | VBool b => m = JvBool b
  | VBytes bs => exists r, m = JvBuf r /\ (lo <= r)%nat /\ nth_error h r = Some (CellBuf bs)
  | VString s => m = JvText s
  | VUnits n => exists r, m = JvArr r /\ (lo <= r)%nat /\ nth_error h r = Some (CellArr (repeat JvNull (N.to_nat n)))
  | VArr vs =>
      match t with
      | NArray e => exists r ms, m = JvArr r /\ (lo <= r)%nat /\ nth_error h r = Some (CellArr ms) /\ all2P (fun v m => js_value d h lo v e m) vs ms
      | _ => False
      end
  | VStruct ovs =>
      match t with
      | NDecl _ _ _ _ fs => exists ps, m = JvObj ps /\ (d = DIn -> map fst ps = map (fun f => tfield_name u (fst f)) fs) /\
          all2P (fun ov f => match ov with
                             | Some v => js_value d h lo v (snd f) (obj_get ps (tfield_name u (fst f)))
                             | None => obj_get ps (tfield_name u (fst f)) = JvUndef
                             end) ovs fs
      | _ => False
      end
  | VChoice i p fb =>
      match t with
      | NDecl _ _ _ _ fs =>
          match named_field i fs with
          | Some f => exists ps, m = JvObj ps /\ js_value d h lo p (snd f) (obj_get ps (tfield_name u (fst f))) /\
              match fb with Some v' => js_value d h lo v' t (obj_get ps (txt "$fallback")) | None => True end /\
              match d with
              | DOut => forall g, In g fs -> obj_has ps (tfield_name u (fst g)) = str_eqb (tfield_name u (fst g)) (tfield_name u (fst f))
              | DIn => obj_get ps (txt "$field") = JvText (tfield_name u (fst f)) /\
                  map fst ps = [txt "$field"; tfield_name u (fst f)] ++ match fb with Some _ => [txt "$fallback"] | None => [] end
              end
          | None => False
          end
      | _ => False
      end
  end.

(** The same for atlases (TsCodec.v). *)
Fixpoint js_atlas (h : heap) (lo : nat) (a : jatlas) (t : nty) (m : jv) {struct a} : Prop :=
  match a with
  | JSize n => m = JvNum n
  | JStr bs => exists r, m = JvBytes r 0 (lenN bs) /\ (lo <= r)%nat /\ nth_error h r = Some (CellBuf bs)
  | JArr n l =>
      match t with
      | NArray e => exists r ms, m = JvObj [(txt "$size", JvNum n); (txt "$elements", JvArr r)] /\ (lo <= r)%nat /\
          nth_error h r = Some (CellArr ms) /\ all2P (fun a m => js_atlas h lo a e m) l ms
      | _ => False
      end
  | JStruct n l =>
      match t with
      | NDecl _ _ _ _ fs => exists ps, m = JvObj ((txt "$size", JvNum n) :: ps) /\ map fst ps = map (fun f => tfield_name u (fst f)) fs /\
          all2P (fun oa f => match oa with
                             | Some a => js_atlas h lo a (snd f) (obj_get ps (tfield_name u (fst f)))
                             | None => obj_get ps (tfield_name u (fst f)) = JvUndef
                             end) l fs
      | _ => False
      end
  | JChoice i n pa fa =>
      match t with
      | NDecl _ _ _ _ fs =>
          match named_field i fs with
          | Some f => exists mp mf, m = JvObj ([(txt "$size", JvNum n); (tfield_name u (fst f), mp)] ++
                match fa with Some _ => [(txt "$fallback", mf)] | None => [] end) /\
              js_atlas h lo pa (snd f) mp /\ match fa with Some a' => js_atlas h lo a' t mf | None => True end
          | None => False
          end
      | _ => False
      end
  end.
End Values.

(** The largest number of elements of an array in a message. *)
Fixpoint vwidth (v : val) : nat :=
  match v with
  | VArr vs => Nat.max (length vs) (fold_right Nat.max O (map vwidth vs))
  | VStruct ovs => fold_right Nat.max O (map (fun ov => match ov with Some v => vwidth v | None => O end) ovs)
  | VChoice _ p fb => Nat.max (vwidth p) (match fb with Some v => vwidth v | None => O end)
  | _ => O
  end.

(** ** What the program has to contain *)
Section Links.
Context (u : unicode) (find : scope -> jcallee -> option (scope * jfn)) (reach : scope -> str -> bool).
Definition nspaces (ns : namespace) : scope := map (fun c => ts_name u c Pascal None) ns.
(** Where the functions of a declaration are. *)
Definition dscope (ns : namespace) (name : ident) : scope := nspaces ns ++ [ts_name u name Pascal None].
Definition decl_fns (ns : namespace) (s : sschema) (k : skind) (name : ident) (fields : list sfield) : list (str * jfn) :=
  [(txt "atlas", match k with SkStruct => tstruct_atlas u ns s name fields | SkChoice => tchoice_atlas u ns s name fields end);
   (txt "serializeWithAtlasUnsafe", match k with SkStruct => tstruct_ser u ns s name fields | SkChoice => tchoice_ser u ns s name fields end);
   (txt "deserializeUnsafe", match k with SkStruct => tstruct_deser u ns s name fields | SkChoice => tchoice_deser u ns s name fields end)].

Record tinstalled (ns : namespace) (s : sschema) (k : skind) (name : ident) (fields : list sfield) : Prop := mkTInstalled {
  ti_scope : good_scope find reach (dscope ns name);
  ti_own : forall f, In f (decl_fns ns s k name fields) -> find (dscope ns name) (CFn (fst f)) = Some (dscope ns name, snd f);
  ti_fields : NoDup (map txt ["$size"; "$fallback"; "$field"; "__proto__"]%string ++ map (tfield_name u) fields);
  ti_indices : NoDup (map sf_index fields) }.

(** A type, as it is written in a declaration of schema [s] of namespace [ns], stands for a tree; in the scope [here], the
    references in it lead to the declarations of the tree. *)
Fixpoint tlinked (here : scope) (ns : namespace) (s : sschema) (t : sty) (nt : nty) {struct nt} : Prop :=
  match nt with
  | NUnit => t = SyUnit | NF64 => t = SyF64 | NU64 => t = SyU64 | NS64 => t = SyS64 | NBool => t = SyBool
  | NBytes => t = SyBytes | NString => t = SyString
  | NArray nt' => exists t', t = SyArray t' /\ tlinked here ns s t' nt'
  | NDecl ns2 s2 k name fs =>
      (exists i n x p, t = SyCustom i n /\ ttype_path u ns s i n None = x :: p /\ local_ok x = false /\
         forall f, In f (decl_fns ns2 s2 k name (map fst fs)) -> find here (CPath (x :: p) (fst f)) = Some (dscope ns2 name, snd f)) /\
      tinstalled ns2 s2 k name (map fst fs) /\ allP (fun f => tlinked (dscope ns2 name) ns2 s2 (sf_type (fst f)) (snd f)) fs
  end.
End Links.
