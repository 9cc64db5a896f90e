(** Model of how the generated TypeScript finds fields in the caller's message objects: property reads in
    structs, the ['name' in message] tests in choices. Definitions only. *)
From Verif Require Export Identifier.

(** A JavaScript object: its own properties, in insertion order; its prototype is [Object.prototype].
    Payloads are of an arbitrary type [V]; [None] is an own property whose value is [undefined]. *)
Definition jsobj (V : Type) := list (str * option V).

(** The properties of [Object.prototype] (ECMA-262 20.1.3 and B.2.2). *)
Definition object_prototype : list str := map txt
  ["constructor"; "hasOwnProperty"; "isPrototypeOf"; "propertyIsEnumerable"; "toLocaleString"; "toString";
   "valueOf"; "__proto__"; "__defineGetter__"; "__defineSetter__"; "__lookupGetter__"; "__lookupSetter__"]%string.

(** The value of [obj.name]: an own property, or else one inherited from the prototype, or [undefined]. *)
Inductive jsread (V : Type) := RdOwn (v : V) | RdInherited | RdUndefined.
Arguments RdOwn {V} v.
Arguments RdInherited {V}.
Arguments RdUndefined {V}.
Fixpoint js_own {V} (o : jsobj V) (n : str) : option (option V) :=
  match o with
  | [] => None
  | (m, v) :: o' => if str_eqb m n then Some v else js_own o' n
  end.
Definition js_inherited (n : str) : bool := existsb (str_eqb n) object_prototype.
Definition js_get {V} (o : jsobj V) (n : str) : jsread V :=
  match js_own o n with
  | Some (Some v) => RdOwn v
  | Some None => RdUndefined
  | None => if js_inherited n then RdInherited else RdUndefined
  end.
(** ECMA-262 13.10.1: the [in] operator ([HasProperty]: own or inherited). *)
Definition js_in {V} (o : jsobj V) (n : str) : bool :=
  match js_own o n with Some _ => true | None => js_inherited n end.

(** The property name of a field: generate_typescript.rs 1354, 1414 ([write_identifier(.., Camel, None)]). *)
Definition prop (u : unicode) (i : ident) : str := ts_name u i Camel None.

(** What [atlas] and [serializeWithAtlasUnsafe] of a struct see for a field:
    generate_typescript.rs 673-682 and 760-785: [payload = message.name; if (payload !== undefined)]. *)
Definition ts_struct_field {V} (u : unicode) (o : jsobj V) (i : ident) : jsread V := js_get o (prop u i).

(** Which case [atlas] and [serializeWithAtlasUnsafe] of a choice select, and the payload they read:
    generate_typescript.rs 1049-1060, 1141-1152: [if ('name' in message) { const payload = message.name; ...]
    for each field in order; [None] is [unreachable(message)]. *)
Fixpoint ts_choice_case {V} (u : unicode) (o : jsobj V) (fields : list ident) : option (ident * jsread V) :=
  match fields with
  | [] => None
  | i :: fields' => if js_in o (prop u i) then Some (i, js_get o (prop u i)) else ts_choice_case u o fields'
  end.

(** The objects a caller writes, as the generated types demand. A struct (generate_typescript.rs 1352-1370): a
    property for every field; an optional one may be [undefined] (the type is [name: T | undefined], not
    [name?: T]). *)
Definition struct_object {V} (u : unicode) (ms : list (ident * option V)) : jsobj V :=
  map (fun m => (prop u (fst m), snd m)) ms.
(** A choice (generate_typescript.rs 1392-1440): the property of the case, and [$fallback] for the rules that
    need one. A deserialized message also has [$field]. *)
Definition choice_object {V} (u : unicode) (i : ident) (v : V) (field : option V) (fallback : option V) : jsobj V :=
  match field with Some f => [(txt "$field", Some f)] | None => [] end ++
  [(prop u i, Some v)] ++
  match fallback with Some f => [(txt "$fallback", Some f)] | None => [] end.
