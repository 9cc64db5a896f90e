(** What the generated Rust code does: an interpreter for the syntax trees of RustSyntax.v. Definitions only.

    Shared references, [Box]es and the dereferencing of both are transparent: nothing is changed through them. A variable
    that is changed is changed in the environment. The sub-readers that [take] makes borrow the reader they are made from,
    so at any time the readers in use form a chain, and using one ends the use of those made from it; the state is the
    chain ([reader] in Chunks.v), and the value of a reader variable is its place in the chain. The functions at the top of
    the file are those of RustPrim.v, Chunks.v and Writer.v. *)
From Verif Require Export RustSyntax Chunks Writer.

(** A type: the module it is defined in, and its name. *)
Definition tyid := (list str * str)%type.
(** [std::io::Error]: of a kind that matters here, or whatever the writer failed with. *)
Inductive rerr := ReKind (k : ekind) | ReWrite.

Inductive rv :=
| RvUnit
| RvBool (b : bool)
| RvInt (n : N)                             (** [u64], [usize] *)
| RvI64 (z : Z)
| RvF64 (bits : N)
| RvBytes (bs : bytes)                      (** [Vec<u8>], [[u8; 8]] *)
| RvString (s : str)
| RvUnits (n : N)                           (** [Vec<()>] of that length *)
| RvVec (l : list rv)
| RvIter (l : list rv)                      (** an iterator: what it will yield *)
| RvOpt (o : option rv)
| RvOk (v : rv)
| RvErr (e : rerr)
| RvIoError (e : rerr)
| RvKind (e : rerr)                         (** [std::io::ErrorKind] *)
| RvPair (a b : rv)
| RvStruct (t : tyid) (fields : list (str * rv))
| RvEnum (t : tyid) (variant : str) (args : list rv)
| RvReader (place : nat)
| RvWriter
| RvFn (f : fndef).

Definition env := list (str * rv).
Fixpoint lookup {A} (x : str) (l : list (str * A)) : option A :=
  match l with [] => None | (y, v) :: l' => if str_eqb x y then Some v else lookup x l' end.
Fixpoint update {A} (x : str) (v : A) (l : list (str * A)) : list (str * A) :=
  match l with [] => [] | (y, v') :: l' => if str_eqb x y then (y, v) :: l' else (y, v') :: update x v l' end.
(** The end of a scope. *)
Definition leave (outer inner : env) : env := skipn (length inner - length outer) inner.

(** The chain of readers, cut back to a place in it. *)
Fixpoint chain_length (r : reader) : nat := match r with RBase _ => O | RTake _ r' => S (chain_length r') end.
Fixpoint cut (n : nat) (r : reader) : reader := match n with O => r | S n' => cut n' (untake r) end.
Definition reader_at (place : nat) (r : reader) : option reader :=
  if Nat.leb place (chain_length r) then Some (cut (chain_length r - place) r) else None.

(** ** Finding things *)
Fixpoint find_module (path : list str) (m : rmod) : option rmod :=
  match path with
  | [] => Some m
  | x :: path' => match m with RMod children _ => match lookup x children with Some m' => find_module path' m' | None => None end end
  end.
Definition fn_name (f : fndef) : str := match f with FnDef _ name _ _ _ _ _ => name end.
Fixpoint find_fn (name : str) (fns : list fndef) : option fndef :=
  match fns with [] => None | f :: fns' => if str_eqb name (fn_name f) then Some f else find_fn name fns' end.
(** A function of some [impl] for a type, other than a conversion. *)
Definition is_from (trait : option rtype) : bool := match trait with Some (TyApp _ _) => true | _ => false end.
Fixpoint find_method (type name : str) (items : list item) : option fndef :=
  match items with
  | [] => None
  | IImpl trait t fns :: items' =>
      if str_eqb type t && negb (is_from trait) then
        match find_fn name fns with Some f => Some f | None => find_method type name items' end
      else find_method type name items'
  | _ :: items' => find_method type name items'
  end.
(** The conversion from a type, and the type it converts to. *)
Fixpoint find_from (source : str) (items : list item) : option (str * fndef) :=
  match items with
  | [] => None
  | IImpl (Some (TyApp trait (TyPath [t]))) target fns :: items' =>
      if str_eqb trait (txt "From") && str_eqb source t then
        match find_fn (txt "from") fns with Some f => Some (target, f) | None => find_from source items' end
      else find_from source items'
  | _ :: items' => find_from source items'
  end.
Definition method (prog : rmod) (t : tyid) (name : str) : option fndef :=
  match find_module (fst t) prog with Some (RMod _ items) => find_method (snd t) name items | None => None end.
Definition conversion (prog : rmod) (t : tyid) : option (str * fndef) :=
  match find_module (fst t) prog with Some (RMod _ items) => find_from (snd t) items | None => None end.
(** What a path to a type means in a module. *)
Fixpoint resolve (prog : rmod) (here path : list str) : option tyid :=
  match path with
  | [] => None
  | [name] => Some (here, name)
  | x :: path' =>
      if str_eqb x (txt "super") then match here with [] => None | _ => resolve prog (removelast here) path' end
      else match find_module (here ++ [x]) prog with Some _ => resolve prog (here ++ [x]) path' | None => None end
  end.

(** ** Patterns *)
Fixpoint strs_eqb (a b : list str) : bool :=
  match a, b with
  | [], [] => true
  | x :: a', y :: b' => str_eqb x y && strs_eqb a' b'
  | _, _ => false
  end.
(** The arguments of a constructor, if the value is made with it. *)
Definition match_con (here path : list str) (v : rv) : option (list rv) :=
  match v, path with
  | RvOk v, [c] => if str_eqb c (txt "Ok") then Some [v] else None
  | RvErr e, [c] => if str_eqb c (txt "Err") then Some [RvIoError e] else None
  | RvOpt (Some v), [c] => if str_eqb c (txt "Some") then Some [v] else None
  | RvKind (ReKind EOF), [_; _; _; c] => if str_eqb c (txt "UnexpectedEof") then Some [] else None
  | RvEnum (m, t) variant args, [t'; variant'] =>
      if strs_eqb m here && str_eqb t t' && str_eqb variant variant' then Some args else None
  | _, _ => None
  end.
(** The variables that a pattern binds, the last one first; [None] if it does not match. *)
Fixpoint match_pat (here : list str) (p : pat) (v : rv) {struct p} : option env :=
  match p with
  | PWild => Some []
  | PVar _ x => Some [(x, v)]
  | PInt n _ => match v with RvInt m => if m =? n then Some [] else None | _ => None end
  | PRange lo hi _ => match v with RvInt m => if (lo <=? m) && (m <=? hi) then Some [] else None | _ => None end
  | PCon path args =>
      match match_con here path v with
      | None => None
      | Some vs =>
          (fix match_args (ps : list pat) (vs : list rv) : option env :=
             match ps, vs with
             | [], [] => Some []
             | p :: ps', v :: vs' =>
                 match match_pat here p v, match_args ps' vs' with Some a, Some b => Some (b ++ a) | _, _ => None end
             | _, _ => None
             end) args vs
      end
  | PPair p q =>
      match v with
      | RvPair a b => match match_pat here p a, match_pat here q b with Some x, Some y => Some (y ++ x) | _, _ => None end
      | _ => None
      end
  end.

(** ** Running *)

(** The readers, the state of the writer, and what it has accepted so far. *)
Record st (W : Type) := mkSt { st_reader : reader; st_writer : W; st_written : bytes }.
Arguments mkSt {W}. Arguments st_reader {W}. Arguments st_writer {W}. Arguments st_written {W}.

(** [OStuck]: this is not a program that Rust accepts, or it is outside the fragment. *)
Inductive out (W A : Type) :=
| OVal (a : A) (E : env) (s : st W)
| OBreak (E : env) (s : st W)
| OReturn (v : rv) (s : st W)
| OPanic | OFuel | OStuck.
Arguments OVal {W A}. Arguments OBreak {W A}. Arguments OReturn {W A}. Arguments OPanic {W A}. Arguments OFuel {W A}.
Arguments OStuck {W A}.
Definition obind {W A B} (x : out W A) (k : A -> env -> st W -> out W B) : out W B :=
  match x with
  | OVal a E s => k a E s
  | OBreak E s => OBreak E s
  | OReturn v s => OReturn v s
  | OPanic => OPanic | OFuel => OFuel | OStuck => OStuck
  end.
(** Results of functions. *)
Inductive fres (W : Type) := FVal (v : rv) (s : st W) | FPanic | FFuel | FStuck.
Arguments FVal {W}. Arguments FPanic {W}. Arguments FFuel {W}. Arguments FStuck {W}.
Definition of_fres {W} (x : fres W) (E : env) : out W rv :=
  match x with FVal v s => OVal v E s | FPanic => OPanic | FFuel => OFuel | FStuck => OStuck end.
Definition fn_result {W} (x : out W rv) : fres W :=
  match x with
  | OVal v _ s | OReturn v s => FVal v s
  | OPanic => FPanic | OFuel => FFuel | OBreak _ _ | OStuck => FStuck
  end.
(** The end of a scope. *)
Definition scoped {W A} (E : env) (x : out W A) : out W A :=
  match x with
  | OVal a E' s => OVal a (leave E E') s
  | OBreak E' s => OBreak (leave E E') s
  | x => x
  end.
(** The body of a closure. *)
Definition closed {W A} (E : env) (x : out W A) : out W A :=
  match x with
  | OVal a E' s => OVal a (leave E E') s
  | OBreak _ _ | OReturn _ _ => OStuck
  | x => x
  end.

(** Lists of things, given how to run one. *)
Section Lists.
  Context {W X A : Type} (g : X -> env -> st W -> out W A).
  Fixpoint run_list (l : list X) (E : env) (s : st W) : out W (list A) :=
    match l with
    | [] => OVal [] E s
    | x :: l' => obind (g x E s) (fun a E s => obind (run_list l' E s) (fun l E s => OVal (a :: l) E s))
    end.
  (** [for]. *)
  Fixpoint run_for (l : list X) (E : env) (s : st W) : out W unit :=
    match l with
    | [] => OVal tt E s
    | x :: l' =>
        match g x E s with
        | OVal _ E s => run_for l' E s
        | OBreak E s => OVal tt E s
        | OReturn v s => OReturn v s
        | OPanic => OPanic | OFuel => OFuel | OStuck => OStuck
        end
    end.
End Lists.
Section Folds.
  Context {W X A : Type} (g : A -> X -> env -> st W -> out W A).
  Fixpoint run_fold (l : list X) (a : A) (E : env) (s : st W) : out W A :=
    match l with
    | [] => OVal a E s
    | x :: l' => obind (g a x E s) (fun a E s => run_fold l' a E s)
    end.
End Folds.
Section Loops.
  Context {W : Type} (g : env -> st W -> out W unit).
  (** [loop], up to a number of rounds. *)
  Fixpoint run_loop (rounds : nat) (E : env) (s : st W) : out W unit :=
    match rounds with
    | O => OFuel
    | S n =>
        match g E s with
        | OVal _ E s => run_loop n E s
        | OBreak E s => OVal tt E s
        | OReturn v s => OReturn v s
        | OPanic => OPanic | OFuel => OFuel | OStuck => OStuck
        end
    end.
End Loops.

Section Run.
Context {W : Type} (w : writer W).
(** The number of rounds that each loop may take; the largest allocation; whether an overflow of an addition or a
    multiplication wraps around (otherwise it panics); the program. *)
Context (rounds : nat) (lim : N) (wraps : bool) (prog : rmod).

Definition arith (n : N) (E : env) (s : st W) : out W rv :=
  if n <? two64 then OVal (RvInt n) E s else if wraps then OVal (RvInt (n mod two64)) E s else OPanic.

(** An operation on a reader. *)
Definition read_with {A} (place : nat) (s : st W) (op : reader -> cres A) (k : cres A -> fres W) : fres W :=
  match reader_at place (st_reader s) with Some r => k (op r) | None => FStuck end.
Definition set_reader (s : st W) (r : reader) : st W := mkSt r (st_writer s) (st_written s).
Definition io_value {A} (f : A -> rv) (s : st W) (x : cres A) : fres W :=
  match x with
  | COk a r => FVal (RvOk (f a)) (set_reader s r)
  | CErr e r => FVal (RvErr (ReKind e)) (set_reader s r)
  | CPanic => FPanic
  | COutOfFuel => FFuel
  end.
(** Calls of [write_all]. *)
Definition write_calls (cs : list call) (s : st W) : fres W :=
  match run_calls w rounds (st_writer s) (st_written s) cs with
  | (WOk, x, o) => FVal (RvOk RvUnit) (mkSt (st_reader s) x o)
  | (WFailed, x, o) => FVal (RvErr ReWrite) (mkSt (st_reader s) x o)
  | (WPanicked, _, _) => FPanic
  | (WRunning, _, _) => FFuel
  end.

(** The functions at the top of the file. *)
Definition call_top (f : top_fn) (args : list rv) (s : st W) : fres W :=
  match f, args with
  | FnZigzagEncode, [RvI64 z] => FVal (RvInt (zigzag_encode z)) s
  | FnZigzagDecode, [RvInt n] => FVal (RvI64 (zigzag_decode n)) s
  | FnVarintSize, [RvInt n] => FVal (RvInt (varint_size_from_value n)) s
  | FnSerializeVarint, [RvInt n; RvWriter] => write_calls (varint_calls n) s
  | FnDeserializeVarint, [RvReader p] => read_with p s (cdeserialize_varint rounds) (io_value RvInt s)
  | FnFieldHeaderSize, [RvInt i; RvInt n; RvBool b] => FVal (RvInt (field_header_size i n b)) s
  | FnSerializeFieldHeader, [RvWriter; RvInt i; RvInt n; RvBool b] => write_calls (header_calls i n b) s
  | FnDeserializeFieldHeader, [RvReader p] =>
      read_with p s (cdeserialize_field_header rounds) (io_value (fun h => RvPair (RvInt (fst h)) (RvInt (snd h))) s)
  | FnSkip, [RvReader p; RvInt n] => read_with p s (cskip rounds n) (io_value (fun _ => RvUnit) s)
  | FnFinish, [RvReader p] => read_with p s (cfinish rounds) (io_value (fun _ => RvUnit) s)
  | _, _ => FStuck
  end.
(** Functions of the standard library, except those that change a variable. *)
Definition call_std (f : std_fn) (args : list rv) (s : st W) : fres W :=
  match f, args with
  | FnOk, [v] => FVal (RvOk v) s
  | FnErr, [RvIoError e] => FVal (RvErr e) s
  | FnSome, [v] => FVal (RvOpt (Some v)) s
  | FnBoxNew, [v] => FVal v s
  | FnVecNew, [] => FVal (RvVec []) s
  | FnStringNew, [] => FVal (RvString []) s
  | FnUsizeFrom, [RvBool b] | FnU64From, [RvBool b] => FVal (RvInt (if b then 1 else 0)) s
  | FnF64FromLeBytes, [RvBytes bs] => FVal (RvF64 (le_val bs)) s
  | FnU64FromLeBytes, [RvBytes bs] => FVal (RvInt (le_val bs)) s
  | FnTake, [RvReader p; RvInt n] =>
      match reader_at p (st_reader s) with
      | Some r => FVal (RvReader (S p)) (set_reader s (RTake n r))
      | None => FStuck
      end
  | FnErrorNew, [RvKind e; _] => FVal (RvIoError e) s
  | _, _ => FStuck
  end.
(** Functions that read into a buffer: the new value of the buffer, and the result. The buffer is of fixed size, or grows.
    What a failed read leaves in the buffer is not used. *)
Definition read_into (f : std_fn) (place : nat) (buffer : rv) (s : st W) : option rv * fres W :=
  match f, buffer, reader_at place (st_reader s) with
  | FnReadExact, RvBytes old, Some r =>
      let x := cread_exact rounds (lenN old) [] r in
      (match x with COk bs _ => Some (RvBytes bs) | _ => None end, io_value (fun _ => RvUnit) s x)
  | FnReadToEnd, RvBytes old, Some r =>
      let x := cread_to_end rounds [] r in
      (match x with COk bs _ => Some (RvBytes (old ++ bs)) | _ => None end, io_value (fun bs => RvInt (lenN bs)) s x)
  | FnReadToString, RvString old, Some r =>
      match cread_to_end rounds [] r with
      | COk bs r' =>
          match utf8_decode bs with
          | Some text => (Some (RvString (old ++ text)), FVal (RvOk (RvInt (lenN bs))) (set_reader s r'))
          | None => (None, FVal (RvErr (ReKind InvalidData)) (set_reader s r'))
          end
      | x => (None, io_value (fun _ => RvUnit) s x)
      end
  | _, _, _ => (None, FStuck)
  end.
(** Methods that change the variable they are called on: its new value. [reserve_exact] allocates; the elements of the
    vectors it is called on have one byte ([vec![]]) or eight ([Vec::new]). *)
Definition change (m : meth) (self arg : rv) : option (out unit rv) :=
  match m, self with
  | MPush, RvVec l => Some (OVal (RvVec (l ++ [arg])) [] (mkSt (RBase []) tt []))
  | MGetOrInsert, RvOpt o =>
      Some (OVal (RvOpt (Some (match o with Some v => v | None => arg end))) [] (mkSt (RBase []) tt []))
  | MReserveExact, RvBytes _ | MReserveExact, RvString _ =>
      match arg with RvInt n => Some (if lim <? n then OPanic else OVal self [] (mkSt (RBase []) tt [])) | _ => None end
  | MReserveExact, RvVec _ =>
      match arg with RvInt n => Some (if lim <? 8 * n then OPanic else OVal self [] (mkSt (RBase []) tt [])) | _ => None end
  | _, _ => None
  end.
(** The other methods of the standard library, without closures. *)
Definition call_method (m : meth) (self : rv) (args : list rv) (s : st W) : fres W :=
  match m, self, args with
  | MIter, RvVec l, [] | MIntoIter, RvVec l, [] => FVal (RvIter l) s
  | MCollect, RvIter l, [] => FVal (RvVec l) s
  | MZip, RvIter l, [RvIter l'] => FVal (RvIter (map (fun p => RvPair (fst p) (snd p)) (combine l l'))) s
  | MLen, RvVec l, [] => FVal (RvInt (lenN l)) s
  | MLen, RvBytes bs, [] => FVal (RvInt (lenN bs)) s
  | MLen, RvString text, [] => FVal (RvInt (lenN (utf8_encode text))) s
  | MLen, RvUnits n, [] => FVal (RvInt n) s
  | MAsRef, RvOpt _, [] => FVal self s
  | MAsBytes, RvString text, [] => FVal (RvBytes (utf8_encode text)) s
  | MToBits, RvF64 bits, [] => FVal (RvInt bits) s
  | MToLeBytes, RvF64 bits, [] => FVal (RvBytes (le_bytes 8 bits)) s
  | MToLeBytes, RvInt n, [] => FVal (RvBytes (le_bytes 8 n)) s
  | MWriteAll, RvWriter, [RvBytes bs] => write_calls [CWrite bs] s
  | MIsNone, RvOpt o, [] => FVal (RvBool (match o with None => true | Some _ => false end)) s
  | MUnwrap, RvOpt (Some v), [] => FVal v s
  | MUnwrap, RvOpt None, [] => FPanic
  | MKind, RvIoError e, [] => FVal (RvKind e) s
  | _, _, _ => FStuck
  end.

(** The functions of generated types are run by [call], given the module and the type they belong to. *)
Context (call : list str -> str -> fndef -> list rv -> st W -> fres W).
Definition type_of (v : rv) : option tyid := match v with RvStruct t _ | RvEnum t _ _ => Some t | _ => None end.
Definition call_own (m : meth) (self : rv) (args : list rv) (s : st W) : fres W :=
  match type_of self with
  | Some t => match method prog t (meth_str m) with Some f => call (fst t) (snd t) f (self :: args) s | None => FStuck end
  | None => FStuck
  end.
(** [into]: the conversion of an outgoing message; a value of any other type stays as it is ([From<T> for T]). *)
Definition call_into (self : rv) (s : st W) : fres W :=
  match type_of self with
  | Some t => match conversion prog t with Some (target, f) => call (fst t) target f [self] s | None => FStuck end
  | None => FVal self s
  end.

(** The module and the type whose code is run. *)
Context (here : list str) (self_type : str).
Definition deserializer (path : list str) : option tyid :=
  match path with
  | [x] => Some (here, if str_eqb x (txt "Self") then self_type else x)
  | _ => resolve prog here path
  end.

Fixpoint eval (e : expr) (E : env) (s : st W) {struct e} : out W rv :=
  match e with
  | EVar x => match lookup x E with Some v => OVal v E s | None => OStuck end
  | EInt n _ => OVal (RvInt n) E s
  | EBool b => OVal (RvBool b) E s
  | EUnit => OVal RvUnit E s
  | EZeroF64 => OVal (RvF64 0) E s
  | ENone => OVal (RvOpt None) E s
  | EMissingFields n => if Nat.eqb n (length here) then OVal RvUnit E s else OStuck
  | EInvalidData => OVal (RvKind (ReKind InvalidData)) E s
  | EVariant t v => OVal (RvEnum (here, t) v []) E s
  | EField e x =>
      obind (eval e E s) (fun v E s =>
        match v with
        | RvStruct _ fields => match lookup x fields with Some v => OVal v E s | None => OStuck end
        | RvPair a b =>
            if str_eqb x (txt "0") then OVal a E s else if str_eqb x (txt "1") then OVal b E s else OStuck
        | _ => OStuck
        end)
  | ECall (CStd FnReadExact as f) [r; ERef true (EWhole (EVar x))] | ECall (CStd FnReadExact as f) [r; ERef true (EVar x)]
  | ECall (CStd FnReadToEnd as f) [r; ERef true (EVar x)] | ECall (CStd FnReadToString as f) [r; ERef true (EVar x)] =>
      obind (eval r E s) (fun v E s =>
        match v, lookup x E, f with
        | RvReader p, Some old, CStd f =>
            let (new, result) := read_into f p old s in
            of_fres result (match new with Some v => update x v E | None => E end)
        | _, _, _ => OStuck
        end)
  | ECall f args | ECallLines f args =>
      obind (run_list eval args E s) (fun vs E s =>
        match f with
        | CTop n f => if Nat.eqb n (length here) then of_fres (call_top f vs s) E else OStuck
        | CStd f => of_fres (call_std f vs s) E
        | CDeserialize path =>
            match deserializer path with
            | Some t =>
                match method prog t (txt "deserialize_from_reader_ref") with
                | Some f => of_fres (call (fst t) (snd t) f vs s) E
                | None => OStuck
                end
            | None => OStuck
            end
        | CVariant t v => OVal (RvEnum (here, t) v vs) E s
        | CLocal x => match lookup x E with Some (RvFn f) => of_fres (call here self_type f vs s) E | _ => OStuck end
        end)
  | EMethod e m args =>
      match m, e, args with
      | MPush, EVar x, [a] | MGetOrInsert, EVar x, [a] | MReserveExact, EVar x, [a] =>
          obind (eval a E s) (fun v E s =>
            match lookup x E with
            | Some old =>
                match change m old v with
                | Some (OVal new _ _) => OVal RvUnit (update x new E) s
                | Some OPanic => OPanic
                | _ => OStuck
                end
            | None => OStuck
            end)
      | MMap, _, [EClosure [x] body] =>
          obind (eval e E s) (fun v E s =>
            match v with
            | RvOpt None => OVal v E s
            | RvOpt (Some v) =>
                obind (closed E (eval body ((x, v) :: E) s)) (fun v E s => OVal (RvOpt (Some v)) E s)
            | RvIter l =>
                obind (run_list (fun v E s => closed E (eval body ((x, v) :: E) s)) l E s) (fun l E s => OVal (RvIter l) E s)
            | _ => OStuck
            end)
      | MMapOr, _, [d; EClosure [x] body] =>
          obind (eval e E s) (fun v E s => obind (eval d E s) (fun d E s =>
            match v with
            | RvOpt None => OVal d E s
            | RvOpt (Some v) => closed E (eval body ((x, v) :: E) s)
            | _ => OStuck
            end))
      | MFold, _, [a; EClosure [x; y] body] =>
          obind (eval e E s) (fun v E s => obind (eval a E s) (fun a E s =>
            match v with
            | RvIter l => run_fold (fun a v E s => closed E (eval body ((y, v) :: (x, a) :: E) s)) l a E s
            | _ => OStuck
            end))
      | _, _, _ =>
          obind (eval e E s) (fun self E s => obind (run_list eval args E s) (fun vs E s =>
            of_fres
              (match m, vs with
               | MAtlas, _ | MSize, _ | MSerializeWithAtlas, _ => call_own m self vs s
               | MInto, [] => call_into self s
               | _, _ => call_method m self vs s
               end) E))
      end
  | ERef _ e | EDeref e | EParen e | EWhole e => eval e E s
  | EBin op a b =>
      obind (eval a E s) (fun va E s => obind (eval b E s) (fun vb E s =>
        match va, vb with
        | RvInt x, RvInt y =>
            match op with
            | OpAdd => arith (x + y) E s
            | OpMul => arith (x * y) E s
            | OpEq => OVal (RvBool (x =? y)) E s
            | OpNe => OVal (RvBool (negb (x =? y))) E s
            end
        | _, _ => OStuck
        end))
  | ECast e _ => obind (eval e E s) (fun v E s => match v with RvInt _ => OVal v E s | _ => OStuck end)
  | EPair a b => obind (eval a E s) (fun va E s => obind (eval b E s) (fun vb E s => OVal (RvPair va vb) E s))
  | EClosure _ _ => OStuck
  | ETry e =>
      obind (eval e E s) (fun v E s =>
        match v with RvOk v => OVal v E s | RvErr x => OReturn (RvErr x) s | _ => OStuck end)
  | EBlock b => eval_block b E s
  | EIf c yes no =>
      obind (eval c E s) (fun v E s =>
        match v with RvBool true => eval_block yes E s | RvBool false => eval_block no E s | _ => OStuck end)
  | EMatch _ e arms =>
      obind (eval e E s) (fun v E s =>
        (fix run_arms (arms : list arm) : out W rv :=
           match arms with
           | [] => OStuck
           | Arm p body :: arms' =>
               match match_pat here p v with
               | Some bound => scoped E (eval body (bound ++ E) s)
               | None => run_arms arms'
               end
           end) arms)
  | EStruct t fields =>
      obind (run_list (fun f E s => obind (eval (snd f) E s) (fun v E s => OVal (fst f, v) E s)) fields E s)
        (fun fields E s => OVal (RvStruct (here, t) fields) E s)
  | ESum terms =>
      match terms with
      | [] => OVal (RvInt 0) E s
      | a :: terms' =>
          obind (eval a E s) (fun v E s =>
            (fix add (terms : list expr) (v : rv) (E : env) (s : st W) : out W rv :=
               match terms with
               | [] => OVal v E s
               | b :: terms' =>
                   obind (eval b E s) (fun vb E s =>
                     match v, vb with
                     | RvInt x, RvInt y => obind (arith (x + y) E s) (fun v E s => add terms' v E s)
                     | _, _ => OStuck
                     end)
               end) terms' v E s)
      end
  | EOrs terms =>
      (fix disj (terms : list expr) (E : env) (s : st W) : out W rv :=
         match terms with
         | [] => OVal (RvBool false) E s
         | a :: terms' =>
             obind (eval a E s) (fun v E s =>
               match v with RvBool true => OVal v E s | RvBool false => disj terms' E s | _ => OStuck end)
         end) terms E s
  | EZeros n => OVal (RvBytes (repeat 0 (N.to_nat n))) E s
  | EVecEmpty => OVal (RvBytes []) E s
  | EVecUnits e => obind (eval e E s) (fun v E s => match v with RvInt n => OVal (RvUnits n) E s | _ => OStuck end)
  | EPanic => OPanic
  | EReturn e => obind (eval e E s) (fun v _ s => OReturn v s)
  | EBreak => OBreak E s
  end
with exec (x : stmt) (E : env) (s : st W) {struct x} : out W unit :=
  match x with
  | SLet _ p _ e =>
      obind (eval e E s) (fun v E s =>
        match match_pat here p v with Some bound => OVal tt (bound ++ E) s | None => OStuck end)
  | SSemi e | SExpr e => obind (eval e E s) (fun _ E s => OVal tt E s)
  | SFor p e b =>
      obind (eval e E s) (fun v E s =>
        match v with
        | RvVec l | RvIter l =>
            run_for (fun v E s =>
              match match_pat here p v with
              | Some bound => scoped E (obind (eval_block b (bound ++ E) s) (fun _ E s => OVal tt E s))
              | None => OStuck
              end) l E s
        | _ => OStuck
        end)
  | SLoop b => run_loop (fun E s => obind (eval_block b E s) (fun _ E s => OVal tt E s)) rounds E s
  | SIf c b =>
      obind (eval c E s) (fun v E s =>
        match v with
        | RvBool true => obind (eval_block b E s) (fun _ E s => OVal tt E s)
        | RvBool false => OVal tt E s
        | _ => OStuck
        end)
  | SIfLet p e b =>
      obind (eval e E s) (fun v E s =>
        match match_pat here p v with
        | Some bound => scoped E (obind (eval_block b (bound ++ E) s) (fun _ E s => OVal tt E s))
        | None => OVal tt E s
        end)
  | SFn f => OVal tt ((fn_name f, RvFn f) :: E) s
  | SBlank => OVal tt E s
  end
with eval_block (b : block) (E : env) (s : st W) {struct b} : out W rv :=
  match b with
  | Blk _ ss tail =>
      scoped E (obind (run_list exec ss E s) (fun _ E s =>
        match tail with Some e => eval e E s | None => OVal RvUnit E s end))
  end.
End Run.

(** Calling a function: [depth] bounds the number of calls inside each other. *)
Fixpoint bind_params (ps : list param) (args : list rv) : option env :=
  match ps, args with
  | [], [] => Some []
  | p :: ps', v :: args' =>
      match bind_params ps' args' with
      | Some E => Some (E ++ [(match p with ParSelf => txt "self" | Par _ x _ => x end, v)])
      | None => None
      end
  | _, _ => None
  end.
Fixpoint run_fn {W} (w : writer W) (rounds : nat) (lim : N) (wraps : bool) (prog : rmod) (depth : nat)
    (here : list str) (self_type : str) (f : fndef) (args : list rv) (s : st W) : fres W :=
  match depth, f with
  | O, _ => FFuel
  | S depth', FnDef _ _ _ _ params _ body =>
      match bind_params params args with
      | Some E => fn_result (eval_block w rounds lim wraps prog (run_fn w rounds lim wraps prog depth') here self_type body E s)
      | None => FStuck
      end
  end.
(** Calling a method of a type of the program. *)
Definition run_method {W} (w : writer W) (rounds : nat) (lim : N) (wraps : bool) (prog : rmod) (depth : nat)
    (t : tyid) (name : str) (args : list rv) (s : st W) : fres W :=
  match method prog t name with
  | Some f => run_fn w rounds lim wraps prog depth (fst t) (snd t) f args s
  | None => FStuck
  end.
