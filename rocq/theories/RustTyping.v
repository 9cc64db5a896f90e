(** When a generated program is well-typed: the typing rules of the Rust reference for the fragment of RustSyntax.v. A
    specification.

    The rules say which types the expressions can have, and when values are moved: that nothing is moved out of a
    reference, and that nothing is used after it has been moved. That a compiler finds the types is not part of it, and
    neither are lifetimes and the borrow checker. *)
From Coq Require Import Permutation.
From Verif Require Export RustTypes RustPrelude.

(** ** Types *)
(** What a type parameter is known to implement. *)
Inductive capability := Reads | Writes.
Inductive rty :=
| KUnit | KBool | KU8 | KU64 | KUsize | KI64 | KF64
| KString | KStr                            (** [String], [str] *)
| KBytes (n : N) | KSlice                   (** [[u8; n]], [[u8]] *)
| KVec (t : rty) | KOption (t : rty) | KBox (t : rty)
| KRef (mutable : bool) (t : rty)
| KPair (a b : rty)
| KData (id : tyid)                         (** a struct or an enum of the program *)
| KParam (c : capability)                   (** the type parameter [T] *)
| KTake (t : rty)                           (** [std::io::Take] *)
| KIter (t : rty)                           (** any iterator *)
| KError | KErrorKind                       (** [std::io::Error], [std::io::ErrorKind] *)
| KResult (t : rty)                         (** [std::io::Result] *)
| KFn (f : fndef).                          (** a function that is defined in a block *)

Definition copy (t : rty) : Prop :=
  match t with KUnit | KBool | KU8 | KU64 | KUsize | KI64 | KF64 | KBytes _ | KRef false _ | KErrorKind => True | _ => False end.
(** The largest number of an integer type. *)
Definition int_max (t : rty) : option N :=
  match t with KU8 => Some 255 | KU64 | KUsize => Some 18446744073709551615 | KI64 => Some 9223372036854775807 | _ => None end.
Definition prim (name : str) : option rty :=
  lookup name [(txt "bool", KBool); (txt "u8", KU8); (txt "u64", KU64); (txt "usize", KUsize); (txt "i64", KI64); (txt "f64", KF64);
               (txt "String", KString)].
Fixpoint implements (c : capability) (t : rty) : Prop :=
  match t with
  | KParam c' => c' = c
  | KRef true t => implements c t
  | KTake t => c = Reads /\ implements c t
  | _ => False
  end.
Definition bound_of (b : str) : option capability :=
  lookup b [(txt "BufRead", Reads); (txt "::std::io::BufRead", Reads); (txt "Write", Writes); (txt "::std::io::Write", Writes)].

(** Dereferencing as often as necessary; whether what is reached may be moved. *)
Inductive reaches : bool -> rty -> bool -> rty -> Prop :=
| rc_here o t : reaches o t o t
| rc_ref o m t o' t' : reaches false t o' t' -> reaches o (KRef m t) o' t'
| rc_box o t o' t' : reaches o t o' t' -> reaches o (KBox t) o' t'.
(** Coercions, where a value is passed to a function. *)
Inductive coerces : rty -> rty -> Prop :=
| co_same t : coerces t t
| co_shared t : coerces (KRef true t) (KRef false t)
| co_box m t : coerces (KRef m (KBox t)) (KRef m t)
| co_array m n : coerces (KRef m (KBytes n)) (KRef m KSlice)
| co_vec m : coerces (KRef m (KVec KU8)) (KRef m KSlice).

Section Program.
Context (prog : rmod).

(** Where code is: the module, what [Self] and [T] mean. *)
Record scope := mkScope { here : list str; self : option rty; targ : option rty }.
(** A name of the standard prelude means what it means there unless the module has an item of that name. *)
Definition not_redefined (s : scope) (name : str) : Prop := item_at prog (here s, name) = None.
Inductive ty_of (s : scope) : rtype -> rty -> Prop :=
| ty_prim name t : prim name = Some t -> not_redefined s name -> ty_of s (TyPath [name]) t
| ty_self t : self s = Some t -> ty_of s (TyPath [txt "Self"]) t
| ty_param t : targ s = Some t -> ty_of s (TyPath [txt "T"]) t
| ty_data p id i : resolve prog (here s) p = Some id -> item_at prog id = Some i -> ty_of s (TyPath p) (KData id)
| ty_vec t k : not_redefined s (txt "Vec") -> ty_of s t k -> ty_of s (TyApp (txt "Vec") t) (KVec k)
| ty_option t k : not_redefined s (txt "Option") -> ty_of s t k -> ty_of s (TyApp (txt "Option") t) (KOption k)
| ty_box t k : not_redefined s (txt "Box") -> ty_of s t k -> ty_of s (TyApp (txt "Box") t) (KBox k)
| ty_result t k : ty_of s t k -> ty_of s (TyApp (txt "::std::io::Result") t) (KResult k)
| ty_unit : ty_of s TyUnit KUnit
| ty_pair a b k l : ty_of s a k -> ty_of s b l -> ty_of s (TyPair a b) (KPair k l)
| ty_ref m t k : ty_of s t k -> ty_of s (TyRef m t) (KRef m k).
(** The types inside the definition of a struct or an enum in a module. *)
Definition in_module (m : list str) : scope := mkScope m None None.
Definition struct_fields (id : tyid) (fields : list (str * rty)) : Prop :=
  exists name decls, item_at prog id = Some (IStruct name decls) /\
    Forall2 (fun f d => fst f = fst d /\ ty_of (in_module (fst id)) (snd d) (snd f)) fields decls.
Definition variant_types (id : tyid) (variant : str) (ts : list rty) : Prop :=
  exists name variants types, item_at prog id = Some (IEnum name variants) /\ In (variant, types) variants /\
    Forall2 (ty_of (in_module (fst id))) types ts.

(** *** Functions *)
(** [param_types s ps ts]: the parameters other than [self] have these types. *)
Inductive param_types (s : scope) : list param -> list rty -> Prop :=
| pt_nil : param_types s [] []
| pt_self ps ts : param_types s ps ts -> param_types s (ParSelf :: ps) ts
| pt_par m x t k ps ts : ty_of s t k -> param_types s ps ts -> param_types s (Par m x t :: ps) (k :: ts).
(** A type for [T]. *)
Definition instance (bound : option str) (t : option rty) : Prop :=
  match bound, t with
  | None, None => True
  | Some b, Some t => exists c, bound_of b = Some c /\ implements c t
  | _, _ => False
  end.
(** [signature s f inst ts r]: with [T] replaced by [inst], the function takes [ts] and returns [r]. *)
Definition signature (m : list str) (self : option rty) (f : fndef) (ts : list rty) (r : rty) : Prop :=
  match f with FnDef _ _ bound _ params ret _ =>
    exists t, instance bound t /\ param_types (mkScope m self t) params ts /\ ty_of (mkScope m self t) ret r
  end.
Definition takes_self (f : fndef) : bool := match f with FnDef _ _ _ _ (ParSelf :: _) _ _ => true | _ => false end.
Definition is_public (f : fndef) : bool := match f with FnDef p _ _ _ _ _ _ => p end.
(** A public function of an [impl] without a trait. *)
Definition inherent (id : tyid) (name : str) (f : fndef) : Prop :=
  exists children items fns, find_module (fst id) prog = Some (RMod children items) /\ In (IImpl None (snd id) fns) items /\
    In f fns /\ fn_name f = name /\ is_public f = true.
(** [converts a b]: there is an [impl From<a> for b]. *)
Definition converts (a b : rty) : Prop :=
  a = b \/
  exists m x y children items t fns, a = KData (m, x) /\ b = KData (m, y) /\
    find_module m prog = Some (RMod children items) /\ In (IImpl (Some (TyApp (txt "From") t)) y fns) items /\ ty_of (in_module m) t a.

(** The functions at the top of the file, according to their definitions there. *)
Definition top_fn_def (f : top_fn) : pfn :=
  match f with
  | FnZigzagEncode => fn_zigzag_encode | FnZigzagDecode => fn_zigzag_decode | FnVarintSize => fn_varint_size_from_value
  | FnSerializeVarint => fn_serialize_varint | FnDeserializeVarint => fn_deserialize_varint
  | FnFieldHeaderSize => fn_field_header_size | FnSerializeFieldHeader => fn_serialize_field_header
  | FnDeserializeFieldHeader => fn_deserialize_field_header | FnSkip => fn_skip | FnFinish => fn_finish
  end.
Inductive top_type (t : option rty) : pty -> rty -> Prop :=
| tt_u8 : top_type t (YInt U8) KU8
| tt_u64 : top_type t (YInt U64) KU64
| tt_usize : top_type t (YInt Usize) KUsize
| tt_i64 : top_type t (YInt I64) KI64
| tt_bool : top_type t YBool KBool
| tt_unit : top_type t YUnit KUnit
| tt_generic k : t = Some k -> top_type t YGeneric (KRef true k)
| tt_result p k : top_type t p k -> top_type t (YResult p) (KResult k)
| tt_pair p q k l : top_type t p k -> top_type t q l -> top_type t (YPair p q) (KPair k l).
Definition top_signature (f : top_fn) (ts : list rty) (r : rty) : Prop :=
  exists t, instance (option_map txt (f_bound (top_fn_def f))) t /\
    Forall2 (fun p => top_type t (p_type p)) (f_params (top_fn_def f)) ts /\ top_type t (f_ret (top_fn_def f)) r.

(** The standard library. *)
Inductive std_signature : std_fn -> list rty -> rty -> Prop :=
| sg_ok t : std_signature FnOk [t] (KResult t)
| sg_err t : std_signature FnErr [KError] (KResult t)
| sg_some t : std_signature FnSome [t] (KOption t)
| sg_box t : std_signature FnBoxNew [t] (KBox t)
| sg_vec t : std_signature FnVecNew [] (KVec t)
| sg_string : std_signature FnStringNew [] KString
| sg_usize_from t : In t [KBool; KU8; KUsize] -> std_signature FnUsizeFrom [t] KUsize
| sg_u64_from t : In t [KBool; KU8; KU64] -> std_signature FnU64From [t] KU64
| sg_f64 : std_signature FnF64FromLeBytes [KBytes 8] KF64
| sg_u64 : std_signature FnU64FromLeBytes [KBytes 8] KU64
| sg_take t : implements Reads t -> std_signature FnTake [t; KU64] (KTake t)
| sg_read_exact t : implements Reads t -> std_signature FnReadExact [KRef true t; KRef true KSlice] (KResult KUnit)
| sg_read_to_end t : implements Reads t -> std_signature FnReadToEnd [KRef true t; KRef true (KVec KU8)] (KResult KUsize)
| sg_read_to_string t : implements Reads t -> std_signature FnReadToString [KRef true t; KRef true KString] (KResult KUsize)
| sg_error : std_signature FnErrorNew [KErrorKind; KRef false KStr] KError.
(** How a method takes the value it is called on. *)
Inductive receiver := ByValue | ByShared | ByMutable.
Inductive std_method : meth -> receiver -> rty -> list rty -> rty -> Prop :=
| sm_iter t : std_method MIter ByShared (KVec t) [] (KIter (KRef false t))
| sm_into_iter t : std_method MIntoIter ByValue (KVec t) [] (KIter t)
| sm_collect t : std_method MCollect ByValue (KIter t) [] (KVec t)
| sm_zip a b : std_method MZip ByValue (KIter a) [KIter b] (KIter (KPair a b))
| sm_len_vec t : std_method MLen ByShared (KVec t) [] KUsize
| sm_len_string : std_method MLen ByShared KString [] KUsize
| sm_into a b : converts a b -> std_method MInto ByValue a [] b
| sm_as_ref t : std_method MAsRef ByShared (KOption t) [] (KOption (KRef false t))
| sm_as_bytes : std_method MAsBytes ByShared KString [] (KRef false KSlice)
| sm_to_bits : std_method MToBits ByValue KF64 [] KU64
| sm_to_le_u64 : std_method MToLeBytes ByValue KU64 [] (KBytes 8)
| sm_to_le_f64 : std_method MToLeBytes ByValue KF64 [] (KBytes 8)
| sm_write_all t : implements Writes t -> std_method MWriteAll ByMutable t [KRef false KSlice] (KResult KUnit)
| sm_push t : std_method MPush ByMutable (KVec t) [t] KUnit
| sm_reserve_vec t : std_method MReserveExact ByMutable (KVec t) [KUsize] KUnit
| sm_reserve_string : std_method MReserveExact ByMutable KString [KUsize] KUnit
| sm_get_or_insert t : std_method MGetOrInsert ByMutable (KOption t) [t] (KRef true t)
| sm_is_none t : std_method MIsNone ByShared (KOption t) [] KBool
| sm_unwrap t : std_method MUnwrap ByValue (KOption t) [] t
| sm_kind : std_method MKind ByShared KError [] KErrorKind.
(** The methods of the generated types. *)
Definition own_method (m : meth) : option str :=
  match m with MAtlas => Some (txt "atlas") | MSize => Some (txt "size") | MSerializeWithAtlas => Some (txt "serialize_with_atlas") | _ => None end.
(** Casts between integer types. *)
Definition castable (a b : rty) : Prop := int_max a <> None /\ int_max b <> None.

(** *** Patterns *)
(** A variable has a value and is [mut] or not, or its value has been moved somewhere else, or some fields of it have. *)
Inductive held := Fixed | Mut | Moved | Less (fields : list str).
Definition tenv := list (str * (held * rty)).
Definition usable (m : held) : bool := match m with Fixed | Mut => true | _ => false end.
Fixpoint becomes (x : str) (f : held -> held) (G : tenv) : tenv :=
  match G with
  | [] => []
  | (y, (m, t)) :: G => if str_eqb x y then (y, (f m, t)) :: G else (y, (m, t)) :: becomes x f G
  end.
Definition gone (x : str) : tenv -> tenv := becomes x (fun _ => Moved).
Definition without (x field : str) : tenv -> tenv :=
  becomes x (fun m => match m with Moved => Moved | Less fields => Less (field :: fields) | _ => Less [field] end).
(** What is left of [G'] at the end of a piece of code that began with [G]: later variables are not in scope any more. *)
Definition leave (G G' : tenv) : tenv := skipn (length G' - length G) G'.
(** How the value that a pattern is matched against is reached: it may be moved; it is behind a reference, which variables
    are bound to as well ("default binding modes"); or it may not be moved. *)
Inductive access := Owned | ViaRef | Pinned.
Inductive makes (h : list str) : list str -> rty -> list rty -> Prop :=
| cn_ok t : makes h [txt "Ok"] (KResult t) [t]
| cn_err t : makes h [txt "Err"] (KResult t) [KError]
| cn_some t : makes h [txt "Some"] (KOption t) [t]
| cn_eof : find_module (h ++ [txt "std"]) prog = None ->
    makes h (map txt ["std"; "io"; "ErrorKind"; "UnexpectedEof"]%string) KErrorKind []
| cn_variant t v ts : variant_types (h, t) v ts -> makes h [t; v] (KData (h, t)) ts.
Inductive pattern (h : list str) : access -> rty -> pat -> tenv -> Prop :=
| pa_wild a t : pattern h a t PWild []
| pa_var t x : pattern h Owned t (PVar false x) [(x, (Fixed, t))]
| pa_var_ref t x : pattern h ViaRef t (PVar false x) [(x, (Fixed, KRef false t))]
| pa_var_copy t x : copy t -> pattern h Pinned t (PVar false x) [(x, (Fixed, t))]
| pa_ref a t x : a <> ViaRef -> pattern h a t (PVar true x) [(x, (Fixed, KRef false t))]
| pa_int a t n sfx max : int_max t = Some max -> n <= max -> (sfx = [] \/ prim sfx = Some t) -> pattern h a t (PInt n sfx) []
| pa_range a t lo hi sfx max : int_max t = Some max -> lo <= hi -> hi <= max -> prim sfx = Some t -> pattern h a t (PRange lo hi sfx) []
| pa_con a t path args ts G : makes h path t ts -> patterns h a ts args G -> pattern h a t (PCon path args) G
| pa_pair a t1 t2 p q G1 G2 : pattern h a t1 p G1 -> pattern h a t2 q G2 -> pattern h a (KPair t1 t2) (PPair p q) (G2 ++ G1)
| pa_through_con a t path args G : pattern h ViaRef t (PCon path args) G -> pattern h a (KRef false t) (PCon path args) G
| pa_through_pair a t p q G : pattern h ViaRef t (PPair p q) G -> pattern h a (KRef false t) (PPair p q) G
with patterns (h : list str) : access -> list rty -> list pat -> tenv -> Prop :=
| pas_nil a : patterns h a [] [] []
| pas_cons a t ts p ps G G' : pattern h a t p G -> patterns h a ts ps G' -> patterns h a (t :: ts) (p :: ps) (G' ++ G).
(** No variable is bound twice. *)
Definition binds (h : list str) (a : access) (t : rty) (p : pat) (G : tenv) : Prop := pattern h a t p G /\ NoDup (map fst G).
(** Patterns that match everything of their type. *)
Fixpoint irrefutable (p : pat) : Prop :=
  match p with PWild | PVar _ _ => True | PPair p q => irrefutable p /\ irrefutable q | _ => False end.
(** The patterns of a [match] cover everything: a sufficient criterion. *)
Inductive exhaustive (h : list str) (ps : list pat) : rty -> Prop :=
| ex_any t p : In p ps -> irrefutable p -> exhaustive h ps t
| ex_int t max : int_max t = Some max -> t <> KI64 ->
    (forall n, n <= max -> exists p, In p ps /\ match p with PInt m _ => m = n | PRange lo hi _ => lo <= n <= hi | _ => False end) -> exhaustive h ps t
| ex_enum t name variants : item_at prog (h, t) = Some (IEnum name variants) ->
    (forall v types, In (v, types) variants -> exists args, In (PCon [t; v] args) ps /\ Forall irrefutable args) -> exhaustive h ps (KData (h, t))
| ex_result t p q : In (PCon [txt "Ok"] [p]) ps -> In (PCon [txt "Err"] [q]) ps -> irrefutable p -> irrefutable q -> exhaustive h ps (KResult t).

(** *** Expressions *)
(** Inside a function: the scope, what it returns, the variables at the beginning of a loop that [break] can end. *)
Record ctx := mkCtx { sc : scope; returns : option rty; in_loop : option tenv }.
Definition looping (c : ctx) (l : option tenv) : ctx := mkCtx (sc c) (returns c) l.
(** In a closure, where neither [return] nor [break] occurs. *)
Definition closure (c : ctx) : ctx := mkCtx (sc c) None None.
(** Expressions that do not give a value. *)
Definition diverges (e : expr) : bool := match e with EPanic | EReturn _ | EBreak => true | _ => false end.
Definition arm_pat (a : arm) : pat := match a with Arm p _ => p end.
Definition arm_expr (a : arm) : expr := match a with Arm _ e => e end.

(** Paths to places. [path_place G e owned t]: with the variables [G], [e] is a path to a place of type [t] that has a value;
    whether the value may be moved. *)
Inductive path_place (G : tenv) : expr -> bool -> rty -> Prop :=
| p_var x m t : lookup x G = Some (m, t) -> usable m = true -> path_place G (EVar x) true t
| p_field e x o t o' id fields k : path_place G e o t -> reaches o t o' (KData id) -> struct_fields id fields -> In (x, k) fields ->
    path_place G (EField e x) o' k
| p_rest x f moved id fields k : lookup x G = Some (Less moved, KData id) -> struct_fields id fields -> In (f, k) fields -> ~ In f moved ->
    path_place G (EField (EVar x) f) true k
| p_first e o t o' a b : path_place G e o t -> reaches o t o' (KPair a b) -> path_place G (EField e (txt "0")) o' a
| p_second e o t o' a b : path_place G e o t -> reaches o t o' (KPair a b) -> path_place G (EField e (txt "1")) o' b
| p_deref e o m t : path_place G e o (KRef m t) -> path_place G (EDeref e) false t
| p_unbox e o t : path_place G e o (KBox t) -> path_place G (EDeref e) o t
| p_whole e o n : path_place G e o (KBytes n) -> path_place G (EWhole e) false KSlice
| p_paren e o t : path_place G e o t -> path_place G (EParen e) o t.
(** The place may be changed. *)
Inductive changeable (G : tenv) : expr -> Prop :=
| ch_var x t : lookup x G = Some (Mut, t) -> changeable G (EVar x)
| ch_deref e t : path_place G e true (KRef true t) -> changeable G (EDeref e)
| ch_whole e : changeable G e -> changeable G (EWhole e).
(** Moving the value at a place: what the variables hold afterwards. *)
Inductive moves (G : tenv) : expr -> tenv -> Prop :=
| mv_var x : moves G (EVar x) (gone x G)
| mv_field x f : moves G (EField (EVar x) f) (without x f G)
| mv_unbox e G' : moves G e G' -> moves G (EDeref e) G'
| mv_paren e G' : moves G e G' -> moves G (EParen e) G'.

(** [has c G e t G']: the expression has a value of the type; [G] and [G'] are the variables before and after it. [place]: it
    is a path to a place, or a temporary. [receives]: a method can be called on it. [passes again]: as an argument; if
    [again], then a variable that holds a [&mut] is not moved (the place it refers to is borrowed again), which is the case
    where the parameter is declared as a [&mut]. *)
Inductive has : ctx -> tenv -> expr -> rty -> tenv -> Prop :=
| h_copy c G e o t : path_place G e o t -> copy t -> has c G e t G
| h_move c G e t G' : path_place G e true t -> moves G e G' -> has c G e t G'
| h_int c G n sfx t max : prim sfx = Some t -> int_max t = Some max -> n <= max -> has c G (EInt n sfx) t G
| h_bool c G b : has c G (EBool b) KBool G
| h_unit c G : has c G EUnit KUnit G
| h_f64 c G : has c G EZeroF64 KF64 G
| h_none c G t : has c G ENone (KOption t) G
| h_missing c G n : n = length (here (sc c)) -> has c G (EMissingFields n) (KRef false KStr) G
| h_invalid c G : has c G EInvalidData KErrorKind G
| h_variant c G t v : variant_types (here (sc c), t) v [] -> has c G (EVariant t v) (KData (here (sc c), t)) G
| h_top c G n f args ts r G' : n = length (here (sc c)) -> top_signature f ts r -> passes_all true c G args ts G' -> has c G (ECall (CTop n f) args) r G'
| h_std c G f args ts r G' : std_signature f ts r -> passes_all false c G args ts G' -> has c G (ECall (CStd f) args) r G'
| h_lines c G f args r G' : has c G (ECall f args) r G' -> has c G (ECallLines f args) r G'
| h_deserialize c G p id f args ts r G' : ty_of (sc c) (TyPath p) (KData id) -> inherent id (txt "deserialize_from_reader_ref") f ->
    takes_self f = false -> signature (fst id) (Some (KData id)) f ts r -> passes_all true c G args ts G' -> has c G (ECall (CDeserialize p) args) r G'
| h_construct c G t v ts args G' : variant_types (here (sc c), t) v ts -> passes_all false c G args ts G' ->
    has c G (ECall (CVariant t v) args) (KData (here (sc c), t)) G'
| h_local c G x f args ts r m G' : lookup x G = Some (m, KFn f) -> signature (here (sc c)) None f ts r -> passes_all true c G args ts G' ->
    has c G (ECall (CLocal x) args) r G'
| h_method c G e m args how t ts r G1 G2 : std_method m how t ts r -> receives c G e how t G1 -> passes_all false c G1 args ts G2 ->
    has c G (EMethod e m args) r G2
| h_map_iter c G e x b t r G1 G2 : has c G e (KIter t) G1 -> has (closure c) ((x, (Fixed, t)) :: G1) b r G2 -> leave G1 G2 = G1 ->
    has c G (EMethod e MMap [EClosure [x] b]) (KIter r) G1
| h_map_option c G e x b t r G1 G2 : has c G e (KOption t) G1 -> has (closure c) ((x, (Fixed, t)) :: G1) b r G2 -> leave G1 G2 = G1 ->
    has c G (EMethod e MMap [EClosure [x] b]) (KOption r) G1
| h_map_or c G e z x b t r G1 G2 G3 : has c G e (KOption t) G1 -> has c G1 z r G2 -> has (closure c) ((x, (Fixed, t)) :: G2) b r G3 -> leave G2 G3 = G2 ->
    has c G (EMethod e MMapOr [z; EClosure [x] b]) r G2
| h_fold c G e z x y b t r G1 G2 G3 : x <> y -> has c G e (KIter t) G1 -> has c G1 z r G2 ->
    has (closure c) ((y, (Fixed, t)) :: (x, (Fixed, r)) :: G2) b r G3 -> leave G2 G3 = G2 ->
    has c G (EMethod e MFold [z; EClosure [x; y] b]) r G2
| h_own c G e m name id f args ts r G1 G2 : own_method m = Some name -> receives c G e ByShared (KData id) G1 -> inherent id name f -> takes_self f = true ->
    signature (fst id) (Some (KData id)) f ts r -> passes_all true c G1 args ts G2 -> has c G (EMethod e m args) r G2
| h_ref c G e t G' : place c G e t G' -> has c G (ERef false e) (KRef false t) G'
| h_ref_mut c G e o t : path_place G e o t -> changeable G e -> has c G (ERef true e) (KRef true t) G
| h_arith c G op a b t G1 G2 : op = OpAdd \/ op = OpMul -> int_max t <> None -> has c G a t G1 -> has c G1 b t G2 -> has c G (EBin op a b) t G2
| h_compare c G op a b t G1 G2 : op = OpEq \/ op = OpNe -> int_max t <> None -> has c G a t G1 -> has c G1 b t G2 -> has c G (EBin op a b) KBool G2
| h_cast c G e name t t' G' : has c G e t G' -> prim name = Some t' -> castable t t' -> not_redefined (sc c) name -> has c G (ECast e name) t' G'
| h_paren c G e t G' : has c G e t G' -> has c G (EParen e) t G'
| h_pair c G a b t t' G1 G2 : has c G a t G1 -> has c G1 b t' G2 -> has c G (EPair a b) (KPair t t') G2
| h_try c G e t r G' : returns c = Some (KResult r) -> has c G e (KResult t) G' -> has c G (ETry e) t G'
| h_block c G b t G' : block_has c G b t G' -> has c G (EBlock b) t G'
| h_if c G e yes no t G1 G2 : has c G e KBool G1 -> block_has c G1 yes t G2 -> block_has c G1 no t G2 -> has c G (EIf e yes no) t G2
| h_match c G i e t arms r G1 G2 : has c G e t G1 -> arms_have c G1 Owned t arms r G2 -> exhaustive (here (sc c)) (map arm_pat arms) t ->
    has c G (EMatch i e arms) r G2
| h_match_place c G i e o t arms r G' : path_place G e o t -> arms_have c G Pinned t arms r G' -> exhaustive (here (sc c)) (map arm_pat arms) t ->
    has c G (EMatch i e arms) r G'
| h_struct c G t fields decls G' : struct_fields (here (sc c), t) decls -> Permutation (map fst fields) (map fst decls) ->
    fields_have c G fields decls G' -> has c G (EStruct t fields) (KData (here (sc c), t)) G'
| h_sum c G ts t G' : int_max t <> None -> all_have c G ts t G' -> has c G (ESum ts) t G'
| h_ors c G ts G' : ts <> [] -> all_have c G ts KBool G' -> has c G (EOrs ts) KBool G'
| h_zeros c G n : has c G (EZeros n) (KBytes n) G
| h_vec_empty c G t : has c G EVecEmpty (KVec t) G
| h_vec_units c G e G' : has c G e KUsize G' -> has c G (EVecUnits e) (KVec KUnit) G'
| h_panic c G t : has c G EPanic t G
| h_return c G e t r G' : returns c = Some r -> passes false c G e r G' -> has c G (EReturn e) t G'
| h_break c G t G0 : in_loop c = Some G0 -> leave G0 G = G0 -> has c G EBreak t G
with place : ctx -> tenv -> expr -> rty -> tenv -> Prop :=
| pl_path c G e o t : path_place G e o t -> place c G e t G
| pl_temporary c G e t G' : has c G e t G' -> place c G e t G'
with receives : ctx -> tenv -> expr -> receiver -> rty -> tenv -> Prop :=
| rv_shared c G e o t o' t' G' : place c G e t G' -> reaches o t o' t' -> receives c G e ByShared t' G'
| rv_value c G e t G' : has c G e t G' -> receives c G e ByValue t G'
| rv_copied c G e o t o' t' : path_place G e o t -> reaches o t o' t' -> copy t' -> receives c G e ByValue t' G
| rv_mutable c G e o t : path_place G e o t -> changeable G e -> receives c G e ByMutable t G
| rv_borrowed c G e t : path_place G e true (KRef true t) -> receives c G e ByMutable t G
with passes : bool -> ctx -> tenv -> expr -> rty -> tenv -> Prop :=
| ps_has again c G e t t' G' : has c G e t G' -> coerces t t' -> passes again c G e t' G'
| ps_again c G e t : path_place G e true (KRef true t) -> passes true c G e (KRef true t) G
with passes_all : bool -> ctx -> tenv -> list expr -> list rty -> tenv -> Prop :=
| ps_nil again c G : passes_all again c G [] [] G
| ps_cons again c G e es t ts G1 G2 : passes again c G e t G1 -> passes_all again c G1 es ts G2 -> passes_all again c G (e :: es) (t :: ts) G2
with all_have : ctx -> tenv -> list expr -> rty -> tenv -> Prop :=
| al_nil c G t : all_have c G [] t G
| al_cons c G e es t G1 G2 : has c G e t G1 -> all_have c G1 es t G2 -> all_have c G (e :: es) t G2
with fields_have : ctx -> tenv -> list (str * expr) -> list (str * rty) -> tenv -> Prop :=
| fl_nil c G ds : fields_have c G [] ds G
| fl_cons c G x e fs ds t G1 G2 : In (x, t) ds -> passes false c G e t G1 -> fields_have c G1 fs ds G2 -> fields_have c G ((x, e) :: fs) ds G2
(** After each of the arms, the variables hold the same. *)
with arms_have : ctx -> tenv -> access -> rty -> list arm -> rty -> tenv -> Prop :=
| ar_nil c G a t r G' : arms_have c G a t [] r G'
| ar_cons c G a t p e l r Gp G1 G' : binds (here (sc c)) a t p Gp -> has c (Gp ++ G) e r G1 -> leave G G1 = G' -> arms_have c G a t l r G' ->
    arms_have c G a t (Arm p e :: l) r G'
(** Statements: the variables in scope after them, and whether their end is never reached. *)
with stmts_have : ctx -> tenv -> list stmt -> tenv -> bool -> Prop :=
| st_nil c G : stmts_have c G [] G false
| st_cons c G s ss G' d G'' d' : stmt_has c G s G' d -> stmts_have c G' ss G'' d' -> stmts_have c G (s :: ss) G'' (d || d')
with stmt_has : ctx -> tenv -> stmt -> tenv -> bool -> Prop :=
| st_let c G p e t G1 G' : irrefutable p -> has c G e t G1 -> binds (here (sc c)) Owned t p G' -> stmt_has c G (SLet false p None e) (G' ++ G1) false
| st_let_mut c G x ty e t G1 : has c G e t G1 -> match ty with Some ty => ty_of (sc c) ty t | None => True end ->
    stmt_has c G (SLet true (PVar false x) ty e) ((x, (Mut, t)) :: G1) false
| st_semi c G e t G1 : has c G e t G1 -> stmt_has c G (SSemi e) G1 (diverges e)
| st_expr c G e G1 : has c G e KUnit G1 -> stmt_has c G (SExpr e) G1 false
| st_for c G p e b t G' G1 G2 : irrefutable p -> iterates c G e t G1 -> binds (here (sc c)) Owned t p G' ->
    block_has (looping c (Some G1)) (G' ++ G1) b KUnit G2 -> leave G1 G2 = G1 -> stmt_has c G (SFor p e b) G1 false
| st_loop c G b : block_has (looping c (Some G)) G b KUnit G -> stmt_has c G (SLoop b) G false
| st_forever c G b : block_has (looping c None) G b KUnit G -> stmt_has c G (SLoop b) G true
| st_if c G e b G1 : has c G e KBool G1 -> block_has c G1 b KUnit G1 -> stmt_has c G (SIf e b) G1 false
| st_if_let c G p e b t G' G1 G2 : has c G e t G1 -> binds (here (sc c)) Owned t p G' -> block_has c (G' ++ G1) b KUnit G2 -> leave G1 G2 = G1 ->
    stmt_has c G (SIfLet p e b) G1 false
| st_fn c G f : fn_has (here (sc c)) None f -> stmt_has c G (SFn f) ((fn_name f, (Fixed, KFn f)) :: G) false
| st_blank c G : stmt_has c G SBlank G false
with iterates : ctx -> tenv -> expr -> rty -> tenv -> Prop :=
| it_iter c G e t G' : has c G e (KIter t) G' -> iterates c G e t G'
| it_vec c G e t G' : has c G e (KRef false (KVec t)) G' -> iterates c G e (KRef false t) G'
with block_has : ctx -> tenv -> block -> rty -> tenv -> Prop :=
| bl_value c G i ss e G' d t G2 : stmts_have c G ss G' d -> has c G' e t G2 -> block_has c G (Blk i ss (Some e)) t (leave G G2)
| bl_unit c G i ss G' d : stmts_have c G ss G' d -> block_has c G (Blk i ss None) KUnit (leave G G')
| bl_diverges c G i ss G' t G2 : stmts_have c G ss G' true -> block_has c G (Blk i ss None) t G2
(** A function, in a module, with this meaning of [Self]. *)
with fn_has : list str -> option rty -> fndef -> Prop :=
| fn_ok m self p name bound lines params ret body t G r G' :
    match bound with Some b => exists c, bound_of b = Some c /\ t = Some (KParam c) | None => t = None end ->
    params_bind (mkScope m self t) params G -> NoDup (map fst G) -> ty_of (mkScope m self t) ret r ->
    block_has (mkCtx (mkScope m self t) (Some r) None) G body r G' -> fn_has m self (FnDef p name bound lines params ret body)
with params_bind : scope -> list param -> tenv -> Prop :=
| pb_nil s : params_bind s [] []
| pb_self s t ps G : self s = Some t -> params_bind s ps G -> params_bind s (ParSelf :: ps) ((txt "self", (Fixed, KRef false t)) :: G)
| pb_par s m x ty t ps G : ty_of s ty t -> params_bind s ps G ->
    params_bind s (Par m x ty :: ps) ((x, (if m then Mut else Fixed, t)) :: G).

(** ** Items *)
(** The functions that a trait asks for, except for the [mut] of parameters and the bodies. *)
Inductive heading := Heading (name : str) (bound : option str) (params : list param) (ret : rtype).
Definition immutable (p : param) : param := match p with Par _ x t => Par false x t | p => p end.
Definition heading_of (f : fndef) : heading :=
  match f with FnDef _ name bound _ params ret _ => Heading name bound (map immutable params) ret end.
Definition traits : list (str * list heading) :=
  [(txt "Serialize",
    [Heading (txt "size") None [ParSelf] (TyPath [txt "usize"]);
     Heading (txt "serialize") (Some (txt "::std::io::Write")) [ParSelf; Par false (txt "writer") (TyPath [txt "T"])]
       (TyApp (txt "::std::io::Result") TyUnit)]);
   (txt "Deserialize",
    [Heading (txt "deserialize") (Some (txt "::std::io::BufRead")) [Par false (txt "reader") (TyPath [txt "T"])]
       (TyApp (txt "::std::io::Result") (TyPath [txt "Self"]))])].
Definition trait_ok (h : list str) (self : rty) (trait : rtype) (fns : list fndef) : Prop :=
  (exists name headings, trait = TyPath (repeat (txt "super") (length h) ++ [name]) /\ lookup name traits = Some headings /\ map heading_of fns = headings) \/
  (exists t k x, trait = TyApp (txt "From") t /\ not_redefined (in_module h) (txt "From") /\ ty_of (in_module h) t k /\
     map heading_of fns = [Heading (txt "from") None [Par false x t] (TyPath [txt "Self"])]).
Definition item_ok (h : list str) (i : item) : Prop :=
  match i with
  | IStruct name fields => NoDup (map fst fields) /\ Forall (fun f => exists k, ty_of (in_module h) (snd f) k) fields
  | IEnum name variants => NoDup (map fst variants) /\ Forall (fun v => Forall (fun t => exists k, ty_of (in_module h) t k) (snd v)) variants
  | IImpl trait type fns =>
      let self := KData (h, type) in
      item_at prog (h, type) <> None /\ Forall (fn_has h (Some self)) fns /\
      match trait with Some trait => trait_ok h self trait fns | None => True end
  end.
(** What may occur only once in a module: types and modules (which share their names), implementations of a trait for a
    type, functions of a type. *)
Inductive once := OnceName (name : str) | OnceImpl (trait : rtype) (type : str) | OnceFn (type name : str).
Definition item_once (i : item) : list once :=
  match i with
  | IStruct name _ | IEnum name _ => [OnceName name]
  | IImpl (Some trait) type _ => [OnceImpl trait type]
  | IImpl None type fns => map (fun f => OnceFn type (fn_name f)) fns
  end.
Definition module_ok (h : list str) (m : rmod) : Prop :=
  match m with RMod children items =>
    NoDup (map (fun c => OnceName (fst c)) children ++ flat_map item_once items) /\ Forall (item_ok h) items
  end.
Definition well_typed : Prop := forall h m, find_module h prog = Some m -> module_ok h m.

(** ** Sizes of types *)
(** The values of a type that a value of another type contains without a pointer to them. [part_of a b]: a value of [b]
    can contain one of [a] in this way. *)
Inductive inlines : rty -> tyid -> Prop :=
| il_here id : inlines (KData id) id
| il_option t id : inlines t id -> inlines (KOption t) id
| il_first a b id : inlines a id -> inlines (KPair a b) id
| il_second a b id : inlines b id -> inlines (KPair a b) id.
Inductive part_of (a b : tyid) : Prop :=
| part_field fields x t : struct_fields b fields -> In (x, t) fields -> inlines t a -> part_of a b
| part_case v ts t : variant_types b v ts -> In t ts -> inlines t a -> part_of a b.
(** No type contains itself, so that all types have a size. *)
Definition finite_types : Prop := well_founded part_of.
End Program.

(** ** What the schemas must not do *)
(** No schema lies in a module [std] of the module of another schema: the code refers to [std::io::ErrorKind]. *)
Definition std_is_free (u : unicode) (schemas : list (namespace * sschema)) : Prop :=
  forall ns s ns' k rest s', In (ns, s) schemas -> In (ns' ++ k :: rest, s') schemas -> same_ns ns ns' -> rust_name u k Snake None <> txt "std".
