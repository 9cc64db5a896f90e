(** What the generated TypeScript code does: an interpreter for the syntax trees of TsSyntax.v, after ECMA-262. Definitions
    only.

    Evaluating an expression does not change variables. Objects are not changed after they have been made, so they are
    values, as are views and typed arrays (a place in a buffer); arrays and the contents of array buffers are changed, so
    they live in a heap. An array literal with elements is only ever taken apart, and is a value too.

    [ExStuck] and [SoStuck]: the program throws a [TypeError] or a [ReferenceError], or is rejected, or does something that
    is not modelled. The theorems say that this does not happen. *)
From Verif Require Export TsSyntax TsCodec TsNames RustSem.

Inductive jerr := KRange | KOther.          (** a [RangeError], another error *)
Inductive jv :=
| JvUndef
| JvNull
| JvBool (b : bool)
| JvNum (n : N)                             (** a [number] that is a natural number; exact, see TsPrim.v *)
| JvNeg                                     (** some negative [number] *)
| JvFlt (bits : N)                          (** any [number], by its bits in IEEE 754 *)
| JvBig (z : Z)
| JvText (s : str)
| JvObj (props : list (str * jv))           (** its own properties; the prototype is [Object.prototype] *)
| JvInherited                               (** a property of [Object.prototype]; none of them is [undefined] *)
| JvTuple (l : list jv)                     (** an array literal with elements *)
| JvArr (r : nat)
| JvBuf (r : nat)                           (** [ArrayBuffer] *)
| JvView (r : nat) (off len : N)            (** [DataView] of a buffer *)
| JvBytes (r : nat) (off len : N)           (** [Uint8Array], or another typed array, of a buffer *)
| JvError (k : jerr)
| JvEncoder
| JvDecoder.

Inductive cell := CellArr (l : list jv) | CellBuf (bs : bytes).
Definition heap := list cell.
Definition alloc (c : cell) (h : heap) : heap := h ++ [c].
Fixpoint put (r : nat) (c : cell) (h : heap) : heap :=
  match h, r with [], _ => [] | _ :: h', O => c :: h' | c' :: h', S r' => c' :: put r' c h' end.
Definition buffer (r : nat) (h : heap) : option bytes := match nth_error h r with Some (CellBuf bs) => Some bs | _ => None end.
Definition array (r : nat) (h : heap) : option (list jv) := match nth_error h r with Some (CellArr l) => Some l | _ => None end.

(** Variables. [SDead]: declared further down ([true]: with [const]). *)
Inductive slot := SDead (const : bool) | SVar (v : jv) | SConst (v : jv).
Definition jenv := list (str * slot).
Definition slot_value (s : slot) : option jv := match s with SDead _ => None | SVar v | SConst v => Some v end.
Definition var (x : str) (E : jenv) : option jv := match lookup x E with Some s => slot_value s | None => None end.
Definition assign (x : str) (v : jv) (E : jenv) : option jenv :=
  match lookup x E with Some (SVar _) => Some (update x (SVar v) E) | _ => None end.
(** Reaching a declaration. *)
Definition define (x : str) (v : jv) (E : jenv) : option jenv :=
  match lookup x E with Some (SDead c) => Some (update x (if c then SConst v else SVar v) E) | _ => None end.
Fixpoint each_with (g : str -> jv -> jenv -> option jenv) (xs : list str) (vs : list jv) (E : jenv) : option jenv :=
  match xs, vs with
  | [], [] => Some E
  | x :: xs', v :: vs' => match g x v E with Some E' => each_with g xs' vs' E' | None => None end
  | _, _ => None
  end.

(** Outcomes of expressions and of statements; an exception leaves the variables as they are by then. *)
Inductive jout (A : Type) := ExVal (a : A) (h : heap) | ExThrow (v : jv) (h : heap) | ExFuel | ExStuck.
Arguments ExVal {A}. Arguments ExThrow {A}. Arguments ExFuel {A}. Arguments ExStuck {A}.
Definition ebind {A B} (x : jout A) (k : A -> heap -> jout B) : jout B :=
  match x with ExVal a h => k a h | ExThrow v h => ExThrow v h | ExFuel => ExFuel | ExStuck => ExStuck end.
Inductive sout := SoNext (E : jenv) (h : heap) | SoBreak (E : jenv) (h : heap) | SoReturn (v : jv) (h : heap)
| SoThrow (v : jv) (E : jenv) (h : heap) | SoFuel | SoStuck.
Definition sbind {A} (x : jout A) (E : jenv) (k : A -> heap -> sout) : sout :=
  match x with ExVal a h => k a h | ExThrow v h => SoThrow v E h | ExFuel => SoFuel | ExStuck => SoStuck end.
Definition snext (x : sout) (k : jenv -> heap -> sout) : sout := match x with SoNext E h => k E h | x => x end.
(** The end of a block in which [n] variables are declared. *)
Definition leave_block (n : nat) (x : sout) : sout :=
  match x with
  | SoNext E h => SoNext (skipn n E) h
  | SoBreak E h => SoBreak (skipn n E) h
  | SoThrow v E h => SoThrow v (skipn n E) h
  | x => x
  end.
Definition next_env (E : option jenv) (h : heap) : sout := match E with Some E => SoNext E h | None => SoStuck end.
Definition range_error {A} (h : heap) : jout A := ExThrow (JvError KRange) h.

(** ** Operations *)

(** Properties (ECMA-262 10.1.8, 10.1.7). *)
Definition obj_get (ps : list (str * jv)) (x : str) : jv :=
  match lookup x ps with Some v => v | None => if js_inherited x then JvInherited else JvUndef end.
Definition obj_has (ps : list (str * jv)) (x : str) : bool := match lookup x ps with Some _ => true | None => js_inherited x end.
Definition get_prop (v : jv) (x : str) (h : heap) : option jv :=
  match v with
  | JvObj ps => Some (obj_get ps x)
  | JvArr r =>
      match array r h with Some l => if str_eqb x (txt "length") then Some (JvNum (lenN l)) else None | None => None end
  | JvBuf r =>
      match buffer r h with Some bs => if str_eqb x (txt "byteLength") then Some (JvNum (lenN bs)) else None | None => None end
  | JvView r off len | JvBytes r off len =>
      if str_eqb x (txt "buffer") then Some (JvBuf r)
      else if str_eqb x (txt "byteOffset") then Some (JvNum off)
      else if str_eqb x (txt "byteLength") then Some (JvNum len)
      else None
  | _ => None
  end.
(** [a === b] (7.2.14), for the values that are compared. *)
Definition strict_eq (a b : jv) : option bool :=
  match a, b with
  | JvUndef, JvUndef | JvNull, JvNull => Some true
  | JvUndef, _ | _, JvUndef => Some false
  | JvBool x, JvBool y => Some (Bool.eqb x y)
  | JvNum x, JvNum y => Some (x =? y)
  | JvBig x, JvBig y => Some (Z.eqb x y)
  | JvText x, JvText y => Some (str_eqb x y)
  | _, _ => None
  end.
(** Operators (13.7 to 13.12). The bits of a [number] are only taken below 2^31. *)
Definition apply_op (op : jop) (a b : jv) : option jv :=
  match op, a, b with
  | BAdd, JvNum x, JvNum y => Some (JvNum (x + y))
  | BAdd, JvBig x, JvBig y => Some (JvBig (x + y))
  | BSub, JvNum x, JvNum y => Some (if x <? y then JvNeg else JvNum (x - y))
  | BSub, JvBig x, JvBig y => Some (JvBig (x - y))
  | BMul, JvNum x, JvNum y => Some (JvNum (x * y))
  | BMod, JvBig x, JvBig y => if Z.eqb y 0 then None else Some (JvBig (Z.rem x y))
  | BShl, JvBig x, JvBig y => if Z.ltb y 0 then None else Some (JvBig (Z.shiftl x y))
  | BShr, JvBig x, JvBig y => if Z.ltb y 0 then None else Some (JvBig (Z.shiftr x y))
  | BShr, JvNum x, JvNum y => if (x <? 2147483648) && (y <? 32) then Some (JvNum (N.shiftr x y)) else None
  | BAnd, JvBig x, JvBig y => Some (JvBig (Z.land x y))
  | BAnd, JvNum x, JvNum y => if (x <? 2147483648) && (y <? 2147483648) then Some (JvNum (N.land x y)) else None
  | BOr, JvBig x, JvBig y => Some (JvBig (Z.lor x y))
  | BOr, JvNum x, JvNum y => if (x <? 2147483648) && (y <? 2147483648) then Some (JvNum (N.lor x y)) else None
  | BLt, JvNum x, JvNum y => Some (JvBool (x <? y))
  | BLt, JvBig x, JvBig y => Some (JvBool (Z.ltb x y))
  | BGt, JvBig x, JvBig y => Some (JvBool (Z.ltb y x))
  | BEq, _, _ => match strict_eq a b with Some c => Some (JvBool c) | None => None end
  | BNe, _, _ => match strict_eq a b with Some c => Some (JvBool (negb c)) | None => None end
  | _, _, _ => None
  end.
Definition instance_of (v : jv) (c : jclass) : bool :=
  match v, c with
  | JvBuf _, ClsArrayBuffer | JvView _ _ _, ClsDataView | JvError _, ClsError | JvError KRange, ClsRangeError => true
  | _, _ => false
  end.
(** [Object.is(x, 0)], and the bits that [setFloat64] writes. *)
Definition same_value (a b : jv) : option bool :=
  match a, b with
  | JvFlt x, JvNum 0 => Some (x =? 0)
  | JvNum x, JvNum y => Some (x =? y)
  | _, _ => None
  end.
Definition float_bits (v : jv) : option N :=
  match v with JvFlt x => Some (js_bits x) | JvNum 0 => Some 0 | _ => None end.

Definition value_or_stuck {A} (o : option A) (h : heap) : jout A := match o with Some a => ExVal a h | None => ExStuck end.

(** [BigInt(n)], [Number(n)], [Array(n)] (23.1.1.1), [Object.is]. *)
Definition call_global (g : jglobal) (args : list jv) (h : heap) : jout jv :=
  match g, args with
  | GBigInt, [JvNum n] => ExVal (JvBig (Z.of_N n)) h
  | GNumber, [JvBig z] => if Z.ltb z 0 then ExVal JvNeg h else ExVal (JvNum (Z.to_N z)) h
  | GArray, [JvNum n] =>
      if n <? 4294967296 then ExVal (JvArr (length h)) (alloc (CellArr (repeat JvUndef (N.to_nat n))) h) else range_error h
  | GObjectIs, [a; b] => value_or_stuck (match same_value a b with Some c => Some (JvBool c) | None => None end) h
  | _, _ => ExStuck
  end.
(** [new DataView(buffer, byteOffset, byteLength)] (25.3.2.1), [new Uint8Array] likewise (23.2.5.1.3). *)
Definition new_part (make : nat -> N -> N -> jv) (args : list jv) (h : heap) : jout jv :=
  match args with
  | [JvBuf r] => match buffer r h with Some bs => ExVal (make r 0 (lenN bs)) h | None => ExStuck end
  | [JvBuf r; JvNum off; JvNum len] =>
      match buffer r h with
      | Some bs => if off + len <=? lenN bs then ExVal (make r off len) h else range_error h
      | None => ExStuck
      end
  | [JvBuf r; JvNum _; JvNeg] => range_error h
  | _ => ExStuck
  end.
Definition call_new (c : jclass) (args : list jv) (h : heap) : jout jv :=
  match c, args with
  | ClsArrayBuffer, [JvNum n] => ExVal (JvBuf (length h)) (alloc (CellBuf (repeat 0 (N.to_nat n))) h)
  | ClsDataView, _ => new_part JvView args h
  | ClsUint8Array, _ => new_part JvBytes args h
  | ClsError, [JvText _] => ExVal (JvError KOther) h
  | ClsTextEncoder, [] => ExVal JvEncoder h
  | ClsTextDecoder, [] => ExVal JvDecoder h
  | _, _ => ExStuck
  end.
(** Methods of views: bytes at a place of the view (25.3.1.1), and the same for writing (25.3.1.2). *)
Definition view_get (r : nat) (off len : N) (o : jv) (n : N) (h : heap) (k : bytes -> jout jv) : jout jv :=
  match buffer r h, o with
  | Some bs, JvNum o => if o + n <=? len then k (takeN n (dropN (off + o) bs)) else range_error h
  | _, _ => ExStuck
  end.
Definition put_bytes (bs : bytes) (at_ : N) (data : bytes) : bytes := takeN at_ bs ++ data ++ dropN (at_ + lenN data) bs.
Definition view_set (r : nat) (off len : N) (o : jv) (data : bytes) (h : heap) : jout jv :=
  match buffer r h, o with
  | Some bs, JvNum o =>
      if o + lenN data <=? len then ExVal JvUndef (put r (CellBuf (put_bytes bs (off + o) data)) h) else range_error h
  | _, _ => ExStuck
  end.
Definition in_order (little : bool) (bs : bytes) : bytes := if little then bs else rev bs.
Definition call_jmethod (m : jmeth) (self : jv) (args : list jv) (h : heap) : jout jv :=
  match m, self, args with
  | MtPush, JvArr r, [v] =>
      match array r h with Some l => ExVal (JvNum (lenN (l ++ [v]))) (put r (CellArr (l ++ [v])) h) | None => ExStuck end
  | MtFill, JvArr r, [v] =>
      match array r h with Some l => ExVal self (put r (CellArr (repeat v (length l))) h) | None => ExStuck end
  (* 25.1.5.3 *)
  | MtSlice, JvBuf r, [JvNum a; JvNum b] =>
      match buffer r h with
      | Some bs => ExVal (JvBuf (length h)) (alloc (CellBuf (takeN (N.min b (lenN bs) - a) (dropN a bs))) h)
      | None => ExStuck
      end
  (* 23.2.3.24 *)
  | MtSet, JvBytes r off len, [JvBytes r2 off2 len2; JvNum o] =>
      match buffer r h, buffer r2 h with
      | Some bs, Some bs2 =>
          if o + len2 <=? len then ExVal JvUndef (put r (CellBuf (put_bytes bs (off + o) (takeN len2 (dropN off2 bs2)))) h)
          else range_error h
      | _, _ => ExStuck
      end
  | MtEncode, JvEncoder, [JvText s] =>
      ExVal (JvBytes (length h) 0 (lenN (utf8_encode s))) (alloc (CellBuf (utf8_encode s)) h)
  | MtDecode, JvDecoder, [JvBytes r off len] =>
      match buffer r h with Some bs => ExVal (JvText (text_decode (takeN len (dropN off bs)))) h | None => ExStuck end
  | MtGetUint8, JvView r off len, [o] => view_get r off len o 1 h (fun bs => ExVal (JvNum (le_val bs)) h)
  | MtGetFloat64, JvView r off len, [o; JvBool little] =>
      view_get r off len o 8 h (fun bs => ExVal (JvFlt (js_bits (le_val (in_order little bs)))) h)
  | MtGetBigUint64, JvView r off len, [o; JvBool little] =>
      view_get r off len o 8 h (fun bs => ExVal (JvBig (Z.of_N (le_val (in_order little bs)))) h)
  | MtSetUint8, JvView r off len, [o; JvNum n] => view_set r off len o (le_bytes 1 (n mod 256)) h
  | MtSetUint16, JvView r off len, [o; JvNum n; JvBool little] => view_set r off len o (in_order little (le_bytes 2 (n mod 65536))) h
  | MtSetUint32, JvView r off len, [o; JvNum n; JvBool little] => view_set r off len o (in_order little (le_bytes 4 (n mod 4294967296))) h
  | MtSetFloat64, JvView r off len, [o; v; JvBool little] =>
      match float_bits v with Some n => view_set r off len o (in_order little (le_bytes 8 n)) h | None => ExStuck end
  | MtSetBigUint64, JvView r off len, [o; JvBig z; JvBool little] =>
      view_set r off len o (in_order little (le_bytes 8 (Z.to_N (z mod Z.of_N two64)))) h
  | _, _, _ => ExStuck
  end.

(** ** Blocks *)
Definition declared_in (s : jstmt) : list (str * bool) :=
  match s with
  | JLet c x _ _ => [(x, c)]
  | JLets xs => map (fun x => (x, false)) xs
  | JLetTuple xs _ => map (fun x => (x, true)) xs
  | _ => []
  end.
Definition block_frame (ss : list jstmt) : jenv := map (fun d => (fst d, SDead (snd d))) (flat_map declared_in ss).
Fixpoint all_different (l : list str) : bool :=
  match l with [] => true | x :: l' => negb (existsb (str_eqb x) l') && all_different l' end.
Section Blocks.
  Context (g : jstmt -> jenv -> heap -> sout).
  Fixpoint run_stmts (ss : list jstmt) (E : jenv) (h : heap) : sout :=
    match ss with [] => SoNext E h | s :: ss' => snext (g s E h) (run_stmts ss') end.
  (** The variables of a block can be seen in all of it (14.2.3); none is declared twice (14.2.1). *)
  Definition run_block (extra : jenv) (ss : list jstmt) (E : jenv) (h : heap) : sout :=
    let frame := extra ++ block_frame ss in
    if all_different (map fst frame) then leave_block (length frame) (run_stmts ss (frame ++ E) h) else SoStuck.
  (** The cases of a [switch] share a block, in which nothing is declared. *)
  Definition run_body (b : bool * list jstmt) (E : jenv) (h : heap) : sout :=
    if fst b then run_block [] (snd b) E h
    else match block_frame (snd b) with [] => run_stmts (snd b) E h | _ => SoStuck end.
  (** Once a case has been found, the bodies are run one after the other; the default is the last. *)
  Context (ev : jexpr -> jenv -> heap -> jout jv) (v : jv) (default : bool * list jstmt).
  Fixpoint run_cases (found : bool) (cases : list (jexpr * (bool * list jstmt))) (E : jenv) (h : heap) : sout :=
    match cases with
    | [] => run_body default E h
    | (c, b) :: cases' =>
        if found then snext (run_body b E h) (run_cases true cases')
        else
          sbind (ev c E h) E (fun w h =>
            match strict_eq v w with
            | Some true => snext (run_body b E h) (run_cases true cases')
            | Some false => run_cases false cases' E h
            | None => SoStuck
            end)
    end.
End Blocks.
Section ExprLists.
  Context {X A : Type} (g : X -> heap -> jout A).
  Fixpoint eval_list (l : list X) (h : heap) : jout (list A) :=
    match l with
    | [] => ExVal [] h
    | x :: l' => ebind (g x h) (fun a h => ebind (eval_list l' h) (fun l h => ExVal (a :: l) h))
    end.
End ExprLists.
Definition after_loop (x : sout) : sout := match x with SoBreak E h => SoNext E h | x => x end.
Section WhileLoops.
  Context (c : jenv -> heap -> jout bool) (g : jenv -> heap -> sout).
  (** Up to a number of rounds. *)
  Fixpoint run_while (rounds : nat) (E : jenv) (h : heap) : sout :=
    match rounds with
    | O => SoFuel
    | S n => sbind (c E h) E (fun b h => if b then snext (g E h) (run_while n) else SoNext E h)
    end.
End WhileLoops.

(** ** Running *)

(** Where a function is: the names of the namespaces around it. *)
Definition scope := list str.
Section Run.
Context (rounds : nat).
(** What function a name or a path means in a scope, and whether a name there means what it means at the top. *)
Context (find : scope -> jcallee -> option (scope * jfn)) (reach : scope -> str -> bool).
Context (call : scope -> jfn -> list jv -> heap -> jout jv) (here : scope).

Definition as_bool (v : jv) (h : heap) : jout bool := match v with JvBool b => ExVal b h | _ => ExStuck end.
Definition not_local (x : str) (E : jenv) : bool := match lookup x E with None => true | Some _ => false end.
Definition global_name (g : jglobal) : str := match g with GObjectIs => txt "Object" | _ => global_str g end.
Definition call_callee (f : jcallee) (vs : list jv) (E : jenv) (h : heap) : jout jv :=
  let own := match find here f with Some (sc, fn) => call sc fn vs h | None => ExStuck end in
  match f with
  | CFn x => if not_local x E then own else ExStuck
  | CPath p _ => match p with x :: _ => if not_local x E then own else ExStuck | [] => ExStuck end
  | CGlobal g => if not_local (global_name g) E && reach here (global_name g) then call_global g vs h else ExStuck
  end.
Definition class_ok (c : jclass) (E : jenv) : bool := not_local (class_str c) E && reach here (class_str c).

Fixpoint jeval (e : jexpr) (E : jenv) (h : heap) {struct e} : jout jv :=
  match e with
  | XVar x => value_or_stuck (var x E) h
  | XNum _ n => ExVal (JvNum n) h
  | XBig _ n => ExVal (JvBig (Z.of_N n)) h
  | XBool b => ExVal (JvBool b) h
  | XNull => ExVal JvNull h
  | XUndefined => ExVal JvUndef h
  | XStr s => ExVal (JvText s) h
  | XProp e x => ebind (jeval e E h) (fun v h => value_or_stuck (get_prop v x h) h)
  | XIndex e i =>
      ebind (jeval e E h) (fun v h => ebind (jeval i E h) (fun n h =>
        match v, n with
        | JvArr r, JvNum n => match array r h with Some l => value_or_stuck (nth_error l (N.to_nat n)) h | None => ExStuck end
        | _, _ => ExStuck
        end))
  | XCall _ f args => ebind (eval_list (fun e h => jeval e E h) args h) (fun vs h => call_callee f vs E h)
  | XMethod _ e m args =>
      ebind (jeval e E h) (fun v h => ebind (eval_list (fun e h => jeval e E h) args h) (fun vs h => call_jmethod m v vs h))
  | XNew _ c args =>
      ebind (eval_list (fun e h => jeval e E h) args h) (fun vs h => if class_ok c E then call_new c vs h else ExStuck)
  | XNeg e => ebind (jeval e E h) (fun v h => match v with JvBig z => ExVal (JvBig (- z)) h | _ => ExStuck end)
  | XBin _ BBoth a b =>
      ebind (jeval a E h) (fun v h => match v with JvBool true => jeval b E h | JvBool false => ExVal v h | _ => ExStuck end)
  | XBin _ op a b =>
      ebind (jeval a E h) (fun va h => ebind (jeval b E h) (fun vb h => value_or_stuck (apply_op op va vb) h))
  | XCond c a b =>
      ebind (jeval c E h) (fun v h => match v with JvBool true => jeval a E h | JvBool false => jeval b E h | _ => ExStuck end)
  | XParen _ e | XAs e _ => jeval e E h
  | XArr _ [] => ExVal (JvArr (length h)) (alloc (CellArr []) h)
  | XArr _ l => ebind (eval_list (fun e h => jeval e E h) l h) (fun vs h => ExVal (JvTuple vs) h)
  (* 13.2.5.5; [__proto__: v] sets the prototype *)
  | XObj _ ps =>
      if all_different (txt "__proto__" :: map fst ps) then
        ebind (eval_list (fun p h =>
                 ebind (match snd p with Some e => jeval e E h | None => value_or_stuck (var (fst p) E) h end)
                   (fun v h => ExVal (fst p, v) h)) ps h)
          (fun ps h => ExVal (JvObj ps) h)
      else ExStuck
  | XIn x e => ebind (jeval e E h) (fun v h => match v with JvObj ps => ExVal (JvBool (obj_has ps x)) h | _ => ExStuck end)
  | XInstance e c => ebind (jeval e E h) (fun v h => if class_ok c E then ExVal (JvBool (instance_of v c)) h else ExStuck)
  | XOrs l =>
      (fix any (l : list jexpr) (h : heap) : jout jv :=
         match l with
         | [] => ExVal (JvBool false) h
         | e :: l' =>
             ebind (jeval e E h) (fun v h => match v with JvBool true => ExVal v h | JvBool false => any l' h | _ => ExStuck end)
         end) l h
  end.

Definition condition (e : jexpr) (E : jenv) (h : heap) : jout bool := ebind (jeval e E h) as_bool.
Fixpoint jexec (s : jstmt) (E : jenv) (h : heap) {struct s} : sout :=
  match s with
  | JLet _ x _ (Some e) => sbind (jeval e E h) E (fun v h => next_env (define x v E) h)
  | JLet _ x _ None => next_env (define x JvUndef E) h
  | JLets xs => next_env (each_with define xs (map (fun _ => JvUndef) xs) E) h
  | JLetTuple xs e =>
      sbind (jeval e E h) E (fun v h => match v with JvTuple vs => next_env (each_with define xs vs E) h | _ => SoStuck end)
  | JAssign x e => sbind (jeval e E h) E (fun v h => next_env (assign x v E) h)
  | JOpAssign x op e =>
      match var x E with
      | Some old =>
          sbind (jeval e E h) E (fun v h => match apply_op op old v with Some v => next_env (assign x v E) h | None => SoStuck end)
      | None => SoStuck
      end
  | JAssignTuple xs e =>
      sbind (jeval e E h) E (fun v h => match v with JvTuple vs => next_env (each_with assign xs vs E) h | _ => SoStuck end)
  | JExpr e => sbind (jeval e E h) E (fun _ h => SoNext E h)
  | JBlock b => run_block jexec [] b E h
  | JIf branches last =>
      (fix pick (branches : list (jexpr * list jstmt)) (h : heap) : sout :=
         match branches with
         | [] => match last with Some b => run_block jexec [] b E h | None => SoNext E h end
         | (c, b) :: branches' =>
             sbind (condition c E h) E (fun yes h => if yes then run_block jexec [] b E h else pick branches' h)
         end) branches h
  | JFor x limit b =>
      leave_block 1
        (after_loop
           (run_while (fun E h => condition (XBin None BLt (XVar x) limit) E h)
              (fun E h => snext (run_block jexec [] b E h) (fun E h =>
                 match var x E with
                 | Some v => match apply_op BAdd v (JvNum 1) with Some v => next_env (assign x v E) h | None => SoStuck end
                 | None => SoStuck
                 end)) rounds ((x, SVar (JvNum 0)) :: E) h))
  | JWhile c b => after_loop (run_while (condition c) (fun E h => run_block jexec [] b E h) rounds E h)
  | JBreak => SoBreak E h
  | JReturn e => sbind (jeval e E h) E (fun v h => SoReturn v h)
  | JThrow e => sbind (jeval e E h) E (fun v h => SoThrow v E h)
  | JTry b x handler =>
      match run_block jexec [] b E h with
      | SoThrow v E h => leave_block 1 (run_block jexec [] handler ((x, SVar v) :: E) h)
      | r => r
      end
  | JSwitch e cases default =>
      sbind (jeval e E h) E (fun v h => after_loop (run_cases jexec jeval v default false cases E h))
  | JBlank => SoNext E h
  end.
End Run.

(** ** Calls *)
(** 447-450 of generate_typescript.rs: the constants at the top, as [prelude_consts] of TsText.v makes them; [dataView64] is
    a view of cell 0 ([prelude_constants] in TsEval.v). *)
Definition missing_text : str := txt "Struct missing one or more required field(s).".
Definition top_constants : jenv :=
  [(txt "missingFieldsErrorMessage", SConst (JvText missing_text)); (txt "dataView64", SConst (JvView 0 0 8));
   (txt "textEncoder", SConst JvEncoder); (txt "textDecoder", SConst JvDecoder)].
Fixpoint jbind_params (ps : list (str * ttype)) (args : list jv) : option jenv :=
  match ps, args with
  | [], [] => Some []
  | p :: ps', v :: args' => match jbind_params ps' args' with Some E => Some ((fst p, SVar v) :: E) | None => None end
  | _, _ => None
  end.
Definition jfn_result (x : sout) : jout jv :=
  match x with
  | SoReturn v h => ExVal v h
  | SoNext _ h => ExVal JvUndef h
  | SoThrow v _ h => ExThrow v h
  | SoFuel => ExFuel
  | SoBreak _ _ | SoStuck => ExStuck
  end.
(** [depth] bounds the number of calls inside each other. *)
Fixpoint run_jfn (rounds : nat) (find : scope -> jcallee -> option (scope * jfn)) (reach : scope -> str -> bool) (depth : nat)
    (sc : scope) (f : jfn) (args : list jv) (h : heap) : jout jv :=
  match depth, f with
  | O, _ => ExFuel
  | S depth', JFn _ _ _ params _ body =>
      match jbind_params params args with
      | Some P =>
          jfn_result (run_block (jexec rounds find reach (run_jfn rounds find reach depth') sc) P body
                        (filter (fun c => reach sc (fst c)) top_constants) h)
      | None => ExStuck
      end
  end.

(** ** Names in a program (TypeScript handbook, "Namespaces" and "Declaration Merging") *)

(** Namespaces of the same name are one namespace, made of modules and of the functions of declarations. *)
Definition nspace := (list tmod * list tdecl)%type.
Definition children_named (x : str) (m : tmod) : list tmod :=
  match m with TMod children _ => map snd (filter (fun c => str_eqb x (fst c)) children) end.
Definition decls_named (x : str) (m : tmod) : list tdecl := match m with TMod _ ds => filter (fun d => str_eqb x (td_name d)) ds end.
Definition member (x : str) (n : nspace) : option nspace :=
  match flat_map (children_named x) (fst n), flat_map (decls_named x) (fst n) with
  | [], [] => None
  | ms, ds => Some (ms, ds)
  end.
Definition jfn_name (f : jfn) : str := match f with JFn _ name _ _ _ _ => name end.
Definition fns_named (f : str) (fns : list jfn) : list jfn := filter (fun g => str_eqb f (jfn_name g)) fns.
Definition fns_of (f : str) (n : nspace) : list jfn := fns_named f (flat_map td_fns (snd n)).
Fixpoint descend (path : scope) (n : nspace) : option nspace :=
  match path with
  | [] => Some n
  | x :: path' => match member x n with Some n' => descend path' n' | None => None end
  end.
(** From the innermost namespace to the top of the file. *)
Section Outward.
  Context {A : Type} (p : scope -> option A) (top : A).
  Fixpoint outward (reversed : scope) : A :=
    match p (rev reversed) with
    | Some a => a
    | None => match reversed with [] => top | _ :: reversed' => outward reversed' end
    end.
End Outward.
Section Program.
Context (top : list jfn) (prog : tmod).
Definition namespace_at (path : scope) : option nspace := descend path ([prog], []).
Definition find_callee (sc : scope) (f : jcallee) : option (scope * jfn) :=
  match f with
  | CFn f =>
      outward (fun path =>
        match namespace_at path with
        | None => Some None
        | Some n =>
            match member f n, fns_of f n with
            | None, [] => None
            | None, [fn] => Some (Some (path, fn))
            | _, _ => Some None
            end
        end) (match fns_named f top with [fn] => Some ([], fn) | _ => None end) (rev sc)
  | CPath (x :: rest) f =>
      outward (fun path =>
        match namespace_at path with
        | None => Some None
        | Some n =>
            match member x n, fns_of x n with
            | None, [] => None
            | Some n', [] =>
                Some (match descend rest n' with
                      | Some n'' => match fns_of f n'' with [fn] => Some (path ++ x :: rest, fn) | _ => None end
                      | None => None
                      end)
            | _, _ => Some None
            end
        end) None (rev sc)
  | CPath [] _ | CGlobal _ => None
  end.
(** The name does not mean a namespace or a function. *)
Definition reaches_top (sc : scope) (x : str) : bool :=
  outward (fun path =>
    match namespace_at path with
    | None => Some false
    | Some n => match member x n, fns_of x n with None, [] => None | _, _ => Some false end
    end) true (rev sc).
End Program.
(** A program runs with these functions at the top. *)
Definition run_ts (rounds : nat) (top : list jfn) (prog : tmod) (depth : nat) (sc : scope) (f : jfn) (args : list jv) (h : heap)
  : jout jv := run_jfn rounds (find_callee top prog) (reaches_top prog) depth sc f args h.
