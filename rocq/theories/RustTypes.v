(** Which values the types of a generated program have: the Rust reference, on the types and items of RustSyntax.v. A
    specification. [Box<T>] has the values of [T]; a [Vec<()>] is known by its length, a [Vec<u8>] by its bytes. *)
From Verif Require Export RustSpec.

Definition item_name (i : item) : str := match i with IStruct n _ | IEnum n _ => n | IImpl _ _ _ => [] end.
(** The struct or enum of a name in a module. *)
Fixpoint find_item (name : str) (items : list item) : option item :=
  match items with
  | [] => None
  | IImpl _ _ _ :: items' => find_item name items'
  | i :: items' => if str_eqb name (item_name i) then Some i else find_item name items'
  end.
Definition item_at (prog : rmod) (t : tyid) : option item :=
  match find_module (fst t) prog with Some (RMod _ items) => find_item (snd t) items | None => None end.
Definition named_type (s : String.string) : rtype := TyPath [txt s].
Definition vec (t : rtype) : rtype := TyApp (txt "Vec") t.
Definition option_type (t : rtype) : rtype := TyApp (txt "Option") t.
Definition box (t : rtype) : rtype := TyApp (txt "Box") t.

(** [has_type prog here t v]: written in the module [here], the type [t] has the value [v]. *)
Section Program.
Context (prog : rmod).
Definition refers_to (here : list str) (t : rtype) (id : tyid) : Prop :=
  exists p, (t = TyPath p \/ t = box (TyPath p)) /\ resolve prog here p = Some id.
Fixpoint has_type (here : list str) (t : rtype) (v : rv) {struct v} : Prop :=
  match v with
  | RvUnit => t = TyUnit
  | RvBool _ => t = named_type "bool"
  | RvInt n => (t = named_type "u64" \/ t = named_type "usize") /\ n < two64
  | RvI64 z => t = named_type "i64" /\ i64_ok z
  | RvF64 bits => t = named_type "f64" /\ bits < two64
  | RvBytes bs => t = vec (named_type "u8") /\ bytes_ok bs
  | RvString s => t = named_type "String" /\ str_ok s
  | RvUnits n => t = vec TyUnit /\ n < two64
  | RvVec l => exists e, t = vec e /\ e <> named_type "u8" /\ e <> TyUnit /\ allP (has_type here e) l
  | RvOpt o => exists e, t = option_type e /\ match o with Some v => has_type here e v | None => True end
  | RvStruct id fields =>
      refers_to here t id /\
      exists name decls, item_at prog id = Some (IStruct name decls) /\
        all2P (fun f decl => fst f = fst decl /\ has_type (fst id) (snd decl) (snd f)) fields decls
  | RvEnum id variant args =>
      refers_to here t id /\
      exists name variants types, item_at prog id = Some (IEnum name variants) /\ In (variant, types) variants /\
        all2P (fun v t => has_type (fst id) t v) args types
  | _ => False
  end.
End Program.
