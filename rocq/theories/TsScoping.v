(** What a TypeScript compiler rejects, or a JavaScript engine throws an error for, whatever the values are: variables that are
    not declared, not yet declared or not yet assigned, variables and properties declared twice, assignments to constants,
    calls of functions that do not exist or with the wrong number of arguments, [break] outside of a loop, cases that fall
    through, code that cannot be reached, functions that end without a result. ECMA-262 8.3 (scopes), 13.15.1 (assignments),
    14 (early errors of statements); the TypeScript handbook for the rest. Other rules about types are not part of this. A
    specification. *)
From Verif Require Export TsText TsSem.

(** What is known about a variable: its declaration is further down ([true]: it is a constant); it is a constant; it is not a
    constant ([true]: it has been assigned on every path to here). *)
Inductive status := Dead (const : bool) | Const | Let (assigned : bool).
Definition jctx := list (str * status).
(** The statement or the block ends there with what is known then, or never reaches its end. *)
Definition flow := option jctx.

(** A variable for a field starts with [$]. It is [undefined] until it has been assigned, and the code compares it with that. *)
Definition for_field (x : str) : bool := match x with c :: _ => c =? 36 | [] => false end.
Definition readable (x : str) (E : jctx) : Prop := lookup x E = Some Const \/ lookup x E = Some (Let true).
(** Not captured by a local variable. *)
Definition outer (x : str) (E : jctx) : Prop := lookup x E = None.
Definition declare_all (s : str -> status) (xs : list str) (E : jctx) : jctx := fold_left (fun E x => update x (s x) E) xs E.

(** The first knows what the second knows. *)
Definition status_le (a b : status) : Prop := a = b \/ (a = Let true /\ b = Let false).
Definition knows (E E' : jctx) : Prop := Forall2 (fun a b => fst a = fst b /\ status_le (snd a) (snd b)) E E'.
(** A path that ends with [R] leads to where the paths meet with [R']. *)
Inductive meets : flow -> flow -> Prop :=
| meets_never R : meets None R
| meets_known E E' : knows E E' -> meets (Some E) (Some E').
Definition flow_map (g : jctx -> jctx) (R : flow) : flow := match R with Some E => Some (g E) | None => None end.

(** How many arguments they take. *)
Definition method_arity (m : jmeth) : nat :=
  match m with
  | MtPush | MtFill | MtEncode | MtDecode | MtGetUint8 => 1
  | MtSlice | MtSet | MtGetFloat64 | MtGetBigUint64 | MtSetUint8 => 2
  | MtSetUint16 | MtSetUint32 | MtSetFloat64 | MtSetBigUint64 => 3
  end.
Definition global_arity (g : jglobal) : nat := match g with GObjectIs => 2 | _ => 1 end.
Definition class_arity (c : jclass) (n : nat) : Prop :=
  match c with
  | ClsArrayBuffer => n = 1%nat
  | ClsDataView | ClsUint8Array => (1 <= n <= 3)%nat
  | ClsError | ClsRangeError => (n <= 1)%nat
  | ClsTextEncoder | ClsTextDecoder => n = 0%nat
  end.
Definition jfn_params (f : jfn) : list (str * ttype) := match f with JFn _ _ _ ps _ _ => ps end.

(** No type has two properties of the same name. *)
Inductive fine_type : ttype -> Prop :=
| ft_path p : p <> [] -> fine_type (TtPath p)
| ft_array t : fine_type t -> fine_type (TtArray t)
| ft_object fs : NoDup (map fst fs) -> Forall (fun f => fine_type (snd f)) fs -> fine_type (TtObj fs)
| ft_literal s : fine_type (TtLit s)
| ft_union a b : fine_type a -> fine_type b -> fine_type (TtUnion a b)
| ft_tuple l : Forall fine_type l -> fine_type (TtTuple l).
Inductive fine_def : tdef -> Prop :=
| fd_struct name fs : fine_type (TtObj fs) -> fine_def (TdStruct name fs)
| fd_choice name cases : Forall (fun c => fine_type (TtObj c)) cases -> fine_def (TdChoice name cases).

Section Rules.
(** What a call means in a scope, whether a name there means what it means at the top, and the scope. *)
Context (find : scope -> jcallee -> option (scope * jfn)) (reach : scope -> str -> bool) (here : scope).

Definition takes (f : jcallee) (n : nat) : Prop := exists sc fn, find here f = Some (sc, fn) /\ length (jfn_params fn) = n.
Definition built_in_name (x : str) (E : jctx) : Prop := outer x E /\ reach here x = true.
Inductive fine_callee (E : jctx) : jcallee -> nat -> Prop :=
| fc_fn f n : outer f E -> takes (CFn f) n -> fine_callee E (CFn f) n
| fc_path x p f n : outer x E -> takes (CPath (x :: p) f) n -> fine_callee E (CPath (x :: p) f) n
| fc_global g : built_in_name (global_name g) E -> fine_callee E (CGlobal g) (global_arity g).

Inductive fine_expr (E : jctx) : jexpr -> Prop :=
| fe_var x : readable x E -> fine_expr E (XVar x)
(* exact as a [number] *)
| fe_num f n : n < 2 ^ 53 -> (f = Binary8 -> n < 256) -> fine_expr E (XNum f n)
| fe_big g n : fine_expr E (XBig g n)
| fe_bool b : fine_expr E (XBool b)
| fe_null : fine_expr E XNull
| fe_undefined : fine_expr E XUndefined
| fe_str s : fine_expr E (XStr s)
| fe_prop e x : fine_expr E e -> fine_expr E (XProp e x)
| fe_index e i : fine_expr E e -> fine_expr E i -> fine_expr E (XIndex e i)
| fe_call l f args : fine_callee E f (length args) -> Forall (fine_expr E) args -> fine_expr E (XCall l f args)
| fe_method l e m args : fine_expr E e -> length args = method_arity m -> Forall (fine_expr E) args -> fine_expr E (XMethod l e m args)
| fe_new l c args : built_in_name (class_str c) E -> class_arity c (length args) -> Forall (fine_expr E) args -> fine_expr E (XNew l c args)
| fe_neg e : fine_expr E e -> fine_expr E (XNeg e)
| fe_bin n op a b : fine_expr E a -> fine_expr E b -> fine_expr E (XBin n op a b)
| fe_cond c a b : fine_expr E c -> fine_expr E a -> fine_expr E b -> fine_expr E (XCond c a b)
| fe_paren l e : fine_expr E e -> fine_expr E (XParen l e)
| fe_arr l es : Forall (fine_expr E) es -> fine_expr E (XArr l es)
(* [__proto__: v] would set the prototype *)
| fe_obj l ps : NoDup (txt "__proto__" :: map fst ps) ->
    Forall (fun p => fine_expr E (match snd p with Some e => e | None => XVar (fst p) end)) ps -> fine_expr E (XObj l ps)
| fe_as e t : fine_expr E e -> fine_type t -> fine_expr E (XAs e t)
| fe_in x e : fine_expr E e -> fine_expr E (XIn x e)
| fe_instance e c : fine_expr E e -> built_in_name (class_str c) E -> fine_expr E (XInstance e c)
| fe_ors l : Forall (fine_expr E) l -> l <> [] -> fine_expr E (XOrs l).

Definition frame (b : list jstmt) : jctx := map (fun d => (fst d, Dead (snd d))) (flat_map declared_in b).

(** [fine_stmt B E s R]: where [E] is known, the statement is fine and ends with [R]. [B]: what must be known where a [break]
    leads to; [None]: there is no [break]. Variables of inner blocks come first. *)
Inductive fine_stmt : flow -> jctx -> jstmt -> flow -> Prop :=
| fs_let B E c x t e : fine_expr E e -> match t with Some t => fine_type t | None => True end -> lookup x E = Some (Dead c) ->
    fine_stmt B E (JLet c x t (Some e)) (Some (update x (if c then Const else Let true) E))
| fs_declare B E x t : match t with Some t => fine_type t | None => True end -> lookup x E = Some (Dead false) ->
    fine_stmt B E (JLet false x t None) (Some (update x (Let (for_field x)) E))
| fs_declares B E xs : xs <> [] -> Forall (fun x => lookup x E = Some (Dead false)) xs ->
    fine_stmt B E (JLets xs) (Some (declare_all (fun x => Let (for_field x)) xs E))
| fs_let_tuple B E xs e : fine_expr E e -> Forall (fun x => lookup x E = Some (Dead true)) xs ->
    fine_stmt B E (JLetTuple xs e) (Some (declare_all (fun _ => Const) xs E))
| fs_assign B E x e b : fine_expr E e -> lookup x E = Some (Let b) -> fine_stmt B E (JAssign x e) (Some (update x (Let true) E))
| fs_op_assign B E x op e : fine_expr E e -> lookup x E = Some (Let true) -> fine_stmt B E (JOpAssign x op e) (Some E)
| fs_assign_tuple B E xs e : fine_expr E e -> Forall (fun x => exists b, lookup x E = Some (Let b)) xs ->
    fine_stmt B E (JAssignTuple xs e) (Some (declare_all (fun _ => Let true) xs E))
| fs_expr B E e : fine_expr E e -> fine_stmt B E (JExpr e) (Some E)
| fs_block B E b R : fine_block B [] E b R -> fine_stmt B E (JBlock b) R
| fs_if B E branches R : branches <> [] -> fine_branches B E branches R -> meets (Some E) R -> fine_stmt B E (JIf branches None) R
| fs_if_else B E branches b R' R : branches <> [] -> fine_branches B E branches R -> fine_block B [] E b R' -> meets R' R ->
    fine_stmt B E (JIf branches (Some b)) R
| fs_for B E x limit b R : fine_expr ((x, Let true) :: E) limit -> fine_block (Some ((x, Let true) :: E)) [] ((x, Let true) :: E) b R ->
    fine_stmt B E (JFor x limit b) (Some E)
| fs_while B E c b R : fine_expr E c -> fine_block (Some E) [] E b R -> fine_stmt B E (JWhile c b) (Some E)
(* without a [break], this does not end; with one, as the other loops *)
| fs_forever B E b R : fine_block None [] E b R -> fine_stmt B E (JWhile (XBool true) b) None
| fs_forever_break B E E' b R : length E' = length E -> fine_block (Some E') [] E b R -> fine_stmt B E (JWhile (XBool true) b) (Some E')
| fs_break B E inner E1 E' : B = Some E' -> E = inner ++ E1 -> knows E1 E' -> fine_stmt B E JBreak None
| fs_return B E e : fine_expr E e -> fine_stmt B E (JReturn e) None
| fs_throw B E e : fine_expr E e -> fine_stmt B E (JThrow e) None
(* the handler cannot declare the variable again; what the block has done by then is not known *)
| fs_try B E b x h R1 R2 R : fine_block B [] E b R1 -> fine_block B [] ((x, Let true) :: E) h R2 ->
    ~ In x (map fst (frame h)) -> meets R1 R -> meets (flow_map (skipn 1) R2) R -> fine_stmt B E (JTry b x h) R
(* [B']: what must be known after the [switch]; no case but the last leads to the next one *)
| fs_switch B E e cases default B' R' R : fine_expr E e ->
    Forall (fun c => fine_expr E (fst c)) cases ->
    fine_cases B' E (map snd cases) ->
    fine_case B' E default R' -> meets R' R -> (B' = None \/ (B' = R /\ exists E', R = Some E' /\ length E' = length E)) ->
    fine_stmt B E (JSwitch e cases default) R
| fs_blank B E : fine_stmt B E JBlank (Some E)
with fine_branches : flow -> jctx -> list (jexpr * list jstmt) -> flow -> Prop :=
| fbr_nil B E R : fine_branches B E [] R
| fbr_cons B E c b l R' R : fine_expr E c -> fine_block B [] E b R' -> meets R' R -> fine_branches B E l R -> fine_branches B E ((c, b) :: l) R
with fine_cases : flow -> jctx -> list (bool * list jstmt) -> Prop :=
| fcs_nil B E : fine_cases B E []
| fcs_cons B E c l : fine_case B E c None -> fine_cases B E l -> fine_cases B E (c :: l)
(* without braces, nothing is declared *)
with fine_case : flow -> jctx -> bool * list jstmt -> flow -> Prop :=
| fca_braces B E b R : fine_block B [] E b R -> fine_case B E (true, b) R
| fca_plain B E b R : frame b = [] -> fine_list B E b R -> fine_case B E (false, b) R
(** A block, with other variables that are declared with it. *)
with fine_block : flow -> jctx -> jctx -> list jstmt -> flow -> Prop :=
| fb_block B extra E b F R : extra ++ frame b = F -> NoDup (map fst F) -> fine_list B (F ++ E) b R ->
    fine_block B extra E b (flow_map (skipn (length F)) R)
(** Statements after each other, all of which can be reached. *)
with fine_list : flow -> jctx -> list jstmt -> flow -> Prop :=
| fl_nil B E : fine_list B E [] (Some E)
| fl_last B E s : fine_stmt B E s None -> fine_list B E [s] None
| fl_cons B E s E' ss R : fine_stmt B E s (Some E') -> fine_list B E' ss R -> fine_list B E (s :: ss) R.

(** The constants at the top can be seen. A function does not end without [return] or [throw]. *)
Definition constants : jctx := map (fun d => (fst d, Const)) (flat_map declared_in prelude_consts).
Inductive fine_fn : jfn -> Prop :=
| ff_fn exported name l ps ret body :
    Forall (fun c => reach here (fst c) = true) constants ->
    Forall (fun p => fine_type (snd p)) ps -> fine_type ret ->
    fine_block None (map (fun p => (fst p, Let true)) ps) constants body None ->
    fine_fn (JFn exported name l ps ret body).
End Rules.

(** A declaration in a program, with the namespace of its functions. *)
Inductive decl_within : tmod -> scope -> tdecl -> Prop :=
| dw_here ch ds d : In d ds -> decl_within (TMod ch ds) [td_name d] d
| dw_below ch ds x m sc d : In (x, m) ch -> decl_within m sc d -> decl_within (TMod ch ds) (x :: sc) d.
Definition fine_decl (find : scope -> jcallee -> option (scope * jfn)) (reach : scope -> str -> bool) (sc : scope) (d : tdecl) : Prop :=
  Forall fine_def (td_types d) /\ NoDup (map jfn_name (td_fns d)) /\ Forall (fine_fn find reach sc) (td_fns d).

(** A file or directory in a program, with its namespace; no two types in it have the same name. *)
Inductive mod_within : tmod -> scope -> tmod -> Prop :=
| mw_here m : mod_within m [] m
| mw_below ch ds x m sc m' : In (x, m) ch -> mod_within m sc m' -> mod_within (TMod ch ds) (x :: sc) m'.
Definition def_name (t : tdef) : str := match t with TdStruct name _ => name | TdChoice name _ => name end.
Definition types_differ (m : tmod) : Prop := match m with TMod _ ds => NoDup (map def_name (flat_map td_types ds)) end.

(** What is at the top, before the namespaces: constants and functions. *)
Definition fine_top (find : scope -> jcallee -> option (scope * jfn)) (reach : scope -> str -> bool) (consts : list jstmt) (fns : list jfn) : Prop :=
  NoDup (map fst (flat_map declared_in consts) ++ map jfn_name fns) /\
  fine_list find reach [] None (frame consts) consts (Some (map (fun d => (fst d, Const)) (flat_map declared_in consts))) /\
  Forall (fine_fn find reach []) fns.
