(** Syntax trees for the fragment of TypeScript that /repo/src/generate_typescript.rs emits, and the text they stand for.
    The trees also say where lines are broken. Definitions only. *)
From Verif Require Export RustSyntax.

(** Types. They are only printed: they mean nothing when the program is run. *)
Inductive ttype :=
| TtPath (segments : list str)              (** [Foo.BarIn], [number] *)
| TtArray (t : ttype)                       (** [t[]] *)
| TtObj (fields : list (str * ttype))       (** [{ a: t; b: u }] *)
| TtLit (s : str)                           (** ['foo'] *)
| TtUnion (a b : ttype)                     (** [a | b] *)
| TtTuple (l : list ttype).                 (** [[a, b]] *)

Inductive numfmt := Plain | Grouped | Binary8.   (** [128], [16_512], [0b0000_0010] *)
Inductive jclass := ClsArrayBuffer | ClsDataView | ClsUint8Array | ClsError | ClsRangeError | ClsTextEncoder | ClsTextDecoder.
Inductive jglobal := GBigInt | GNumber | GArray | GObjectIs.
Inductive jmeth :=
| MtPush | MtFill | MtSlice | MtSet | MtEncode | MtDecode | MtGetUint8 | MtGetFloat64 | MtGetBigUint64
| MtSetUint8 | MtSetUint16 | MtSetUint32 | MtSetFloat64 | MtSetBigUint64.
Inductive jop := BAdd | BSub | BMul | BMod | BShl | BShr | BAnd | BOr | BLt | BGt | BEq | BNe | BBoth.

(** What is called. *)
Inductive jcallee :=
| CFn (f : str)                             (** a function of the same namespace or of the top of the file *)
| CPath (path : list str) (f : str)         (** [Foo.Bar.atlas] *)
| CGlobal (g : jglobal).

(** [lines]: one argument, element or property per line. *)
Inductive jexpr :=
| XVar (x : str)
| XNum (f : numfmt) (n : N)
| XBig (grouped : bool) (n : N)             (** [5n] *)
| XBool (b : bool)
| XNull
| XUndefined
| XStr (s : str)                            (** ['foo'] *)
| XProp (e : jexpr) (x : str)
| XIndex (e i : jexpr)
| XCall (lines : bool) (f : jcallee) (args : list jexpr)
| XMethod (lines : bool) (e : jexpr) (m : jmeth) (args : list jexpr)
| XNew (lines : bool) (c : jclass) (args : list jexpr)
| XNeg (e : jexpr)
| XBin (newline : option nat) (op : jop) (a b : jexpr)  (** [newline]: [b] is on its own line, this much further in *)
| XCond (c a b : jexpr)                     (** [c ? a : b] *)
| XParen (lines : bool) (e : jexpr)
| XArr (lines : bool) (l : list jexpr)
| XObj (lines : bool) (props : list (str * option jexpr))  (** without an expression: [{ x }], which is [{ x: x }] *)
| XAs (e : jexpr) (t : ttype)
| XIn (x : str) (e : jexpr)                 (** ['x' in e] *)
| XInstance (e : jexpr) (c : jclass)
| XOrs (l : list jexpr).                    (** one disjunct per line *)

Inductive jstmt :=
| JLet (const : bool) (x : str) (t : option ttype) (e : option jexpr)
| JLets (xs : list str)                     (** [let x, y;] *)
| JLetTuple (xs : list str) (e : jexpr)     (** [const [x, y] = e;] *)
| JAssign (x : str) (e : jexpr)
| JOpAssign (x : str) (op : jop) (e : jexpr)  (** [x += e;] *)
| JAssignTuple (xs : list str) (e : jexpr)  (** [[x, y] = e;] *)
| JExpr (e : jexpr)
| JBlock (b : list jstmt)
| JIf (branches : list (jexpr * list jstmt)) (last : option (list jstmt))
| JFor (x : str) (limit : jexpr) (b : list jstmt)  (** [for (let x = 0; x < limit; x += 1) { ... }] *)
| JWhile (c : jexpr) (b : list jstmt)
| JBreak
| JReturn (e : jexpr)
| JThrow (e : jexpr)
| JTry (b : list jstmt) (x : str) (handler : list jstmt)
| JSwitch (e : jexpr) (cases : list (jexpr * (bool * list jstmt))) (default : bool * list jstmt)  (** [true]: in braces *)
| JBlank.                                   (** a blank line *)

Inductive jfn := JFn (exported : bool) (name : str) (lines : bool) (params : list (str * ttype)) (ret : ttype) (body : list jstmt).

(** Type definitions: those of structs and those of choices. *)
Inductive tdef :=
| TdStruct (name : str) (fields : list (str * ttype))
| TdChoice (name : str) (cases : list (list (str * ttype))).
(** A declaration: its types, and the namespace of its functions. *)
Record tdecl := mkTDecl { td_name : str; td_types : list tdef; td_fns : list jfn }.
Inductive tmod := TMod (children : list (str * tmod)) (decls : list tdecl).

(** ** Text *)
(** generate_typescript.rs 11, 1710-1716: [INDENTATION], [write_indentation]. *)
Definition indent2 (n : nat) : str := concat (repeat (txt "  ") n).
Definition quoted (s : str) : str := txt "'" ++ s ++ txt "'".

Fixpoint ttype_str (t : ttype) : str :=
  match t with
  | TtPath p => join_with (txt ".") p
  | TtArray t => ttype_str t ++ txt "[]"
  | TtObj fs => txt "{ " ++ join_with (txt "; ") (map (fun f => fst f ++ txt ": " ++ ttype_str (snd f)) fs) ++ txt " }"
  | TtLit s => quoted s
  | TtUnion a b => ttype_str a ++ txt " | " ++ ttype_str b
  | TtTuple l => txt "[" ++ join_with (txt ", ") (map ttype_str l) ++ txt "]"
  end.

Definition bit (n : N) (k : N) : str := if N.testbit n k then txt "1" else txt "0".
Definition num_str (f : numfmt) (n : N) : str :=
  match f with
  | Plain => print_number n
  | Grouped => print_grouped n
  | Binary8 => txt "0b" ++ bit n 7 ++ bit n 6 ++ bit n 5 ++ bit n 4 ++ txt "_" ++ bit n 3 ++ bit n 2 ++ bit n 1 ++ bit n 0
  end.
Definition class_str (c : jclass) : str := txt
  (match c with
   | ClsArrayBuffer => "ArrayBuffer" | ClsDataView => "DataView" | ClsUint8Array => "Uint8Array" | ClsError => "Error"
   | ClsRangeError => "RangeError" | ClsTextEncoder => "TextEncoder" | ClsTextDecoder => "TextDecoder"
   end)%string.
Definition global_str (g : jglobal) : str := txt
  (match g with GBigInt => "BigInt" | GNumber => "Number" | GArray => "Array" | GObjectIs => "Object.is" end)%string.
Definition jmeth_str (m : jmeth) : str := txt
  (match m with
   | MtPush => "push" | MtFill => "fill" | MtSlice => "slice" | MtSet => "set" | MtEncode => "encode" | MtDecode => "decode"
   | MtGetUint8 => "getUint8" | MtGetFloat64 => "getFloat64" | MtGetBigUint64 => "getBigUint64" | MtSetUint8 => "setUint8"
   | MtSetUint16 => "setUint16" | MtSetUint32 => "setUint32" | MtSetFloat64 => "setFloat64" | MtSetBigUint64 => "setBigUint64"
   end)%string.
Definition jop_str (op : jop) : str := txt
  (match op with
   | BAdd => "+" | BSub => "-" | BMul => "*" | BMod => "%" | BShl => "<<" | BShr => ">>" | BAnd => "&" | BOr => "|"
   | BLt => "<" | BGt => ">" | BEq => "===" | BNe => "!==" | BBoth => "&&"
   end)%string.
Definition jcallee_str (f : jcallee) : str :=
  match f with
  | CFn f => f
  | CPath p f => join_with (txt ".") p ++ txt "." ++ f
  | CGlobal g => global_str g
  end.

(** A list in brackets: on one line, or with one element per line; [ind] is the indentation of the line it starts on. *)
Definition listing (lines : bool) (ind : nat) (l r : str) (items : list str) : str :=
  if lines then l ++ nl ++ concat (map (fun x => indent2 (S ind) ++ x ++ txt "," ++ nl) items) ++ indent2 ind ++ r
  else l ++ join_with (txt ", ") items ++ r.
Definition deeper (lines : bool) (ind : nat) : nat := if lines then S ind else ind.

Fixpoint jexpr_str (ind : nat) (e : jexpr) {struct e} : str :=
  match e with
  | XVar x => x
  | XNum f n => num_str f n
  | XBig g n => (if g then print_grouped n else print_number n) ++ txt "n"
  | XBool b => txt (if b then "true" else "false")%string
  | XNull => txt "null"
  | XUndefined => txt "undefined"
  | XStr s => quoted s
  | XProp e x => jexpr_str ind e ++ txt "." ++ x
  | XIndex e i => jexpr_str ind e ++ txt "[" ++ jexpr_str ind i ++ txt "]"
  | XCall lines f args => jcallee_str f ++ listing lines ind (txt "(") (txt ")") (map (jexpr_str (deeper lines ind)) args)
  | XMethod lines e m args =>
      jexpr_str ind e ++ txt "." ++ jmeth_str m ++ listing lines ind (txt "(") (txt ")") (map (jexpr_str (deeper lines ind)) args)
  | XNew lines c args => txt "new " ++ class_str c ++ listing lines ind (txt "(") (txt ")") (map (jexpr_str (deeper lines ind)) args)
  | XNeg e => txt "-" ++ jexpr_str ind e
  | XBin None op a b => jexpr_str ind a ++ txt " " ++ jop_str op ++ txt " " ++ jexpr_str ind b
  | XBin (Some k) op a b => jexpr_str ind a ++ txt " " ++ jop_str op ++ nl ++ indent2 (ind + k) ++ jexpr_str ind b
  | XCond c a b => jexpr_str ind c ++ txt " ? " ++ jexpr_str ind a ++ txt " : " ++ jexpr_str ind b
  | XParen false e => txt "(" ++ jexpr_str ind e ++ txt ")"
  | XParen true e => txt "(" ++ nl ++ indent2 (S ind) ++ jexpr_str (S ind) e ++ nl ++ indent2 ind ++ txt ")"
  | XArr lines l => listing lines ind (txt "[") (txt "]") (map (jexpr_str (deeper lines ind)) l)
  | XObj lines ps =>
      listing lines ind (txt (if lines then "{" else "{ ")) (txt (if lines then "}" else " }"))
        (map (fun p => match snd p with Some e => fst p ++ txt ": " ++ jexpr_str (deeper lines ind) e | None => fst p end) ps)
  | XAs e t => jexpr_str ind e ++ txt " as " ++ ttype_str t
  | XIn x e => quoted x ++ txt " in " ++ jexpr_str ind e
  | XInstance e c => jexpr_str ind e ++ txt " instanceof " ++ class_str c
  | XOrs l => join_with (nl ++ indent2 (S ind) ++ txt "|| ") (map (jexpr_str ind) l)
  end.

(** A statement, without the indentation in front of it and the line break behind it. *)
Definition in_braces (ind : nat) (b : str) : str := txt "{" ++ nl ++ b ++ indent2 ind ++ txt "}".
Fixpoint jstmt_str (ind : nat) (s : jstmt) {struct s} : str :=
  let body (ind : nat) (b : list jstmt) : str :=
    concat (map (fun s => match s with JBlank => nl | _ => indent2 ind ++ jstmt_str ind s ++ nl end) b) in
  match s with
  | JLet const x t e =>
      txt (if const then "const " else "let ") ++ x ++ match t with Some t => txt ": " ++ ttype_str t | None => [] end ++
      match e with Some e => txt " = " ++ jexpr_str ind e | None => [] end ++ txt ";"
  | JLets xs => txt "let " ++ join_with (txt ", ") xs ++ txt ";"
  | JLetTuple xs e => txt "const [" ++ join_with (txt ", ") xs ++ txt "] = " ++ jexpr_str ind e ++ txt ";"
  | JAssign x e => x ++ txt " = " ++ jexpr_str ind e ++ txt ";"
  | JOpAssign x op e => x ++ txt " " ++ jop_str op ++ txt "= " ++ jexpr_str ind e ++ txt ";"
  | JAssignTuple xs e => txt "[" ++ join_with (txt ", ") xs ++ txt "] = " ++ jexpr_str ind e ++ txt ";"
  | JExpr e => jexpr_str ind e ++ txt ";"
  | JBlock b => in_braces ind (body (S ind) b)
  | JIf branches last =>
      join_with (txt " else ")
        (map (fun cb => txt "if (" ++ jexpr_str ind (fst cb) ++ txt ") " ++ in_braces ind (body (S ind) (snd cb))) branches ++
         match last with Some b => [in_braces ind (body (S ind) b)] | None => [] end)
  | JFor x limit b =>
      txt "for (let " ++ x ++ txt " = 0; " ++ x ++ txt " < " ++ jexpr_str ind limit ++ txt "; " ++ x ++ txt " += 1) " ++
      in_braces ind (body (S ind) b)
  | JWhile c b => txt "while (" ++ jexpr_str ind c ++ txt ") " ++ in_braces ind (body (S ind) b)
  | JBreak => txt "break;"
  | JReturn e => txt "return " ++ jexpr_str ind e ++ txt ";"
  | JThrow e => txt "throw " ++ jexpr_str ind e ++ txt ";"
  | JTry b x h =>
      txt "try " ++ in_braces ind (body (S ind) b) ++ txt " catch (" ++ x ++ txt ") " ++ in_braces ind (body (S ind) h)
  | JSwitch e cases default =>
      let part (label : str) (b : bool * list jstmt) : str :=
        indent2 (S ind) ++ label ++ txt ":" ++
        (if fst b then txt " " ++ in_braces (S ind) (body (S (S ind)) (snd b)) ++ nl else nl ++ body (S (S ind)) (snd b)) in
      txt "switch (" ++ jexpr_str ind e ++ txt ") " ++
      in_braces ind (concat (map (fun c => part (txt "case " ++ jexpr_str ind (fst c)) (snd c)) cases) ++ part (txt "default") default)
  | JBlank => []
  end.
Definition body_str (ind : nat) (b : list jstmt) : str :=
  concat (map (fun s => match s with JBlank => nl | _ => indent2 ind ++ jstmt_str ind s ++ nl end) b).

Definition jfn_str (ind : nat) (f : jfn) : str :=
  match f with
  | JFn exported name lines params ret body =>
      indent2 ind ++ (if exported then txt "export " else []) ++ txt "function " ++ name ++
      listing lines ind (txt "(") (txt ")") (map (fun p => fst p ++ txt ": " ++ ttype_str (snd p)) params) ++
      txt ": " ++ ttype_str ret ++ txt " " ++ in_braces ind (body_str (S ind) body) ++ nl
  end.
(** generate_typescript.rs 1333-1455: [write_struct], [write_choice]. *)
Definition tdef_str (ind : nat) (d : tdef) : str :=
  match d with
  | TdStruct name fields =>
      indent2 ind ++ txt "export type " ++ name ++ txt " = {" ++ nl ++
      concat (map (fun f => indent2 (S ind) ++ fst f ++ txt ": " ++ ttype_str (snd f) ++ txt ";" ++ nl) fields) ++
      indent2 ind ++ txt "};" ++ nl
  | TdChoice name cases =>
      indent2 ind ++ txt "export type " ++ name ++ txt " =" ++
      match cases with
      | [] => txt " never"
      | _ => concat (map (fun c => nl ++ indent2 (S ind) ++ txt "| " ++ ttype_str (TtObj c)) cases)
      end ++ txt ";" ++ nl
  end.
Definition namespace_str (ind : nat) (name : str) (contents : str) : str :=
  indent2 ind ++ txt "export namespace " ++ name ++ txt " {" ++ nl ++ contents ++ indent2 ind ++ txt "}" ++ nl.
Definition tdecl_str (ind : nat) (d : tdecl) : str :=
  join_with nl
    (map (tdef_str ind) (td_types d) ++
     [namespace_str ind (td_name d) (join_with nl (map (jfn_str (S ind)) (td_fns d)))]).
(** generate_typescript.rs 510-557: [write_module], [write_module_contents]; the declarations are separated by blank
    lines (1325-1327). *)
Fixpoint tmod_str (ind : nat) (m : tmod) : str :=
  match m with
  | TMod children decls =>
      join_with nl (map (fun c => namespace_str ind (fst c) (tmod_str (S ind) (snd c))) children ++ map (tdecl_str ind) decls)
  end.
