(** What the functions of RustPrelude.v do: an interpreter. It knows the types of integers and is stuck on whatever Rust's
    type checker would refuse. Readers, writers, errors and the state are those of RustSem.v. Definitions only. *)
From Verif Require Export RustPrelude RustSem.
Local Open Scope string_scope.
Local Open Scope list_scope.
Local Open Scope N_scope.

(** Values. The type of an integer literal without a suffix is not known until it is used. *)
Inductive pval :=
| PvInt (t : option ity) (n : N)            (** not of type [i64] *)
| PvI64 (z : Z)
| PvBool (b : bool)
| PvUnit
| PvBytes (bs : bytes)
| PvStr
| PvReader (place : nat)
| PvWriter
| PvKind (e : rerr)
| PvIoError (e : rerr)
| PvOk (v : pval)
| PvErr (e : rerr)
| PvPair (a b : pval)
| PvFirst (x : string) (n : N).             (** a mutable slice: the first [n] elements of a variable *)
Definition penv := list (string * pval).
Fixpoint pfind {A} (x : string) (l : list (string * A)) : option A :=
  match l with [] => None | (y, v) :: l' => if String.eqb x y then Some v else pfind x l' end.
Fixpoint pset {A} (x : string) (v : A) (l : list (string * A)) : list (string * A) :=
  match l with [] => [] | (y, v') :: l' => if String.eqb x y then (y, v) :: l' else (y, v') :: pset x v l' end.
Definition pleave (outer inner : penv) : penv := skipn (List.length inner - List.length outer) inner.

Definition ity_eqb (a b : ity) : bool :=
  match a, b with U8, U8 | U32, U32 | U64, U64 | Usize, Usize | I64, I64 => true | _, _ => false end.
Definition width (t : ity) : N := match t with U8 => 8 | U32 => 32 | U64 | Usize | I64 => 64 end.
(** Both operands have the same type. *)
Definition unify (a b : option ity) : option (option ity) :=
  match a, b with
  | None, t | t, None => Some t
  | Some x, Some y => if ity_eqb x y then Some a else None
  end.
(** A value of a type. *)
Fixpoint fits (t : pty) (v : pval) : option pval :=
  match t, v with
  | YInt I64, PvI64 _ | YBool, PvBool _ | YUnit, PvUnit | YGeneric, PvReader _ | YGeneric, PvWriter | YResult _, PvErr _ => Some v
  | YInt t, PvInt u n =>
      match unify (Some t) u with Some _ => if n <? 2 ^ width t then Some (PvInt (Some t) n) else None | None => None end
  | YResult t, PvOk v => match fits t v with Some v => Some (PvOk v) | None => None end
  | YPair a b, PvPair v w => match fits a v, fits b w with Some v, Some w => Some (PvPair v w) | _, _ => None end
  | _, _ => None
  end.

Inductive pout (W A : Type) :=
| QVal (a : A) (E : penv) (s : st W)
| QRet (v : pval) (s : st W)
| QPanic | QFuel | QStuck.
Arguments QVal {W A}. Arguments QRet {W A}. Arguments QPanic {W A}. Arguments QFuel {W A}. Arguments QStuck {W A}.
Definition qbind {W A B} (x : pout W A) (k : A -> penv -> st W -> pout W B) : pout W B :=
  match x with QVal a E s => k a E s | QRet v s => QRet v s | QPanic => QPanic | QFuel => QFuel | QStuck => QStuck end.
Definition qscoped {W A} (E : penv) (x : pout W A) : pout W A :=
  match x with QVal a E' s => QVal a (pleave E E') s | x => x end.
(** Results of functions. *)
Inductive pres (W : Type) := PresVal (v : pval) (s : st W) | PresPanic | PresFuel | PresStuck.
Arguments PresVal {W}. Arguments PresPanic {W}. Arguments PresFuel {W}. Arguments PresStuck {W}.
Definition of_pres {W} (x : pres W) (E : penv) : pout W pval :=
  match x with PresVal v s => QVal v E s | PresPanic => QPanic | PresFuel => QFuel | PresStuck => QStuck end.
Definition pres_of {W} (x : pout W pval) : pres W :=
  match x with QVal v _ s | QRet v s => PresVal v s | QPanic => PresPanic | QFuel => PresFuel | QStuck => PresStuck end.

Definition qmatch (p : ppat) (v : pval) : option (option penv) :=   (** [None]: the pattern is not of the type of the value *)
  match p, v with
  | QDec n, PvInt _ m | QBits _ n, PvInt _ m => Some (if m =? n then Some [] else None)
  | QRange lo hi t, PvInt u m =>
      match unify (Some t) u with Some _ => Some (if (lo <=? m) && (m <=? hi) then Some [] else None) | None => None end
  | QVar x, _ => Some (Some [(x, v)])
  | QWild, _ => Some (Some [])
  | _, _ => None
  end.

Section Loop.
  Context {W : Type} (c : penv -> st W -> pout W bool) (b : penv -> st W -> pout W pval).
  (** [while], up to a number of rounds. *)
  Fixpoint qwhile (rounds : nat) (E : penv) (s : st W) : pout W unit :=
    match rounds with
    | O => QFuel
    | S n => qbind (c E s) (fun go E s => if go then qbind (b E s) (fun _ E s => qwhile n E s) else QVal tt E s)
    end.
End Loop.
Section QList.
  Context {W X A : Type} (g : X -> penv -> st W -> pout W A).
  Fixpoint qlist (l : list X) (E : penv) (s : st W) : pout W (list A) :=
    match l with
    | [] => QVal [] E s
    | x :: l' => qbind (g x E s) (fun a E s => qbind (qlist l' E s) (fun l E s => QVal (a :: l) E s))
    end.
End QList.

Section Run.
Context {W : Type} (w : writer W).
(** As in RustSem.v: the rounds of loops, and whether an overflow wraps around (otherwise it panics). *)
Context (rounds : nat) (wraps : bool).
(** The functions of the file. *)
Context (call : string -> list pval -> st W -> pres W).

Definition overflow {A} (n : A) (E : penv) (s : st W) : pout W A := if wraps then QVal n E s else QPanic.
Definition qadd (t : ity) (n : N) (E : penv) (s : st W) : pout W pval :=
  if n <? 2 ^ width t then QVal (PvInt (Some t) n) E s else overflow (PvInt (Some t) (n mod 2 ^ width t)) E s.
Definition qsub (t : ity) (a b : N) (E : penv) (s : st W) : pout W pval :=
  if b <=? a then QVal (PvInt (Some t) (a - b)) E s else overflow (PvInt (Some t) (a + 2 ^ width t - b)) E s.

Definition qop (op : pop) (a b : pval) (E : penv) (s : st W) : pout W pval :=
  match op, a, b with
  | PShl, PvInt (Some t) n, PvInt (Some U32) k =>
      if k <? width t then QVal (PvInt (Some t) (N.shiftl n k mod 2 ^ width t)) E s
      else overflow (PvInt (Some t) (N.shiftl n (k mod width t) mod 2 ^ width t)) E s
  | PShl, PvI64 z, PvInt (Some U32) k =>
      if k <? 64 then QVal (PvI64 (i64_of_u64 (N.shiftl (u64_of_i64 z) k mod two64))) E s
      else overflow (PvI64 (i64_of_u64 (N.shiftl (u64_of_i64 z) (k mod 64) mod two64))) E s
  | PShr, PvInt (Some t) n, PvInt (Some U32) k =>
      if k <? width t then QVal (PvInt (Some t) (N.shiftr n k)) E s
      else overflow (PvInt (Some t) (N.shiftr n (k mod width t))) E s
  | PShr, PvI64 z, PvInt (Some U32) k =>
      if k <? 64 then QVal (PvI64 (Z.shiftr z (Z.of_N k))) E s else overflow (PvI64 (Z.shiftr z (Z.of_N (k mod 64)))) E s
  | PXor, PvI64 x, PvI64 y => QVal (PvI64 (i64_of_u64 (N.lxor (u64_of_i64 x) (u64_of_i64 y)))) E s
  | PXor, PvInt t x, PvInt u y => match unify t u with Some t => QVal (PvInt t (N.lxor x y)) E s | None => QStuck end
  | POr, PvInt t x, PvInt u y => match unify t u with Some t => QVal (PvInt t (N.lor x y)) E s | None => QStuck end
  | PAnd, PvInt t x, PvInt u y => match unify t u with Some t => QVal (PvInt t (N.land x y)) E s | None => QStuck end
  | PAdd, PvInt t x, PvInt u y => match unify t u with Some (Some t) => qadd t (x + y) E s | _ => QStuck end
  | PGt, PvInt t x, PvInt u y => match unify t u with Some _ => QVal (PvBool (y <? x)) E s | None => QStuck end
  | _, _, _ => QStuck
  end.
Definition qcast (v : pval) (t : ity) : option pval :=
  match v, t with
  | PvInt (Some _) n, U8 | PvInt (Some _) n, U32 | PvInt (Some _) n, U64 | PvInt (Some _) n, Usize =>
      Some (PvInt (Some t) (n mod 2 ^ width t))
  | _, _ => None
  end.
(** The elements of a [[u8]]. *)
Fixpoint bytes_of (vs : list pval) : option bytes :=
  match vs with
  | [] => Some []
  | v :: vs' => match fits (YInt U8) v, bytes_of vs' with Some (PvInt _ b), Some bs => Some (b :: bs) | _, _ => None end
  end.

Definition qcall (f : pfun) (args : list pval) (s : st W) : pres W :=
  match f, args with
  | XTransmute I64 U64, [PvI64 z] => PresVal (PvInt (Some U64) (u64_of_i64 z)) s
  | XTransmute U64 I64, [PvInt (Some U64) n] => PresVal (PvI64 (i64_of_u64 n)) s
  | XU64From, [PvInt (Some U8) n] => PresVal (PvInt (Some U64) n) s
  | XFromLe, [PvBytes bs] => if lenN bs =? 8 then PresVal (PvInt (Some U64) (le_val bs)) s else PresStuck
  | XMin, [PvInt t x; PvInt u y] => match unify t u with Some t => PresVal (PvInt t (N.min x y)) s | None => PresStuck end
  | XOk, [v] => PresVal (PvOk v) s
  | XErr, [PvIoError e] => PresVal (PvErr e) s
  | XErrorNew, [PvKind e; PvStr] => PresVal (PvIoError e) s
  | XOwn f, _ => call f args s
  | _, _ => PresStuck
  end.
(** Using a reader ends the use of the readers made from it. [fill_buf] of the readers of Chunks.v does not fail. *)
Definition qmethod (self : pval) (m : pmeth) (args : list pval) (E : penv) (s : st W) : pout W pval :=
  match m, self, args with
  | XTrailingZeros, PvInt (Some U8) n, [] => QVal (PvInt (Some U32) (trailing_zeros n)) E s
  | XWrappingAdd, PvInt (Some t) x, [PvInt u y] =>
      match unify (Some t) u with Some _ => QVal (PvInt (Some t) ((x + y) mod 2 ^ width t)) E s | None => QStuck end
  | XIsEmpty, PvBytes bs, [] => QVal (PvBool (match bs with [] => true | _ => false end)) E s
  | XLen, PvBytes bs, [] => QVal (PvInt (Some Usize) (lenN bs)) E s
  | XWriteAll, PvWriter, [PvBytes bs] =>
      match run_calls w rounds (st_writer s) (st_written s) [CWrite bs] with
      | (WOk, x, o) => QVal (PvOk PvUnit) E (mkSt (st_reader s) x o)
      | (WFailed, x, o) => QVal (PvErr ReWrite) E (mkSt (st_reader s) x o)
      | (WPanicked, _, _) => QPanic
      | (WRunning, _, _) => QFuel
      end
  | XFillBuf, PvReader p, [] =>
      match reader_at p (st_reader s) with Some r => QVal (PvOk (PvBytes (fill_buf r))) E (set_reader s r) | None => QStuck end
  | XConsume, PvReader p, [PvInt (Some Usize) n] =>
      match reader_at p (st_reader s) with Some r => QVal PvUnit E (set_reader s (consume n r)) | None => QStuck end
  | XReadExact, PvReader p, [PvFirst x n] =>
      match reader_at p (st_reader s), pfind x E with
      | Some r, Some (PvBytes old) =>
          match cread_exact rounds n [] r with
          | COk bs r => QVal (PvOk PvUnit) (pset x (PvBytes (bs ++ dropN n old)) E) (set_reader s r)
          | CErr e r => QVal (PvErr (ReKind e)) E (set_reader s r)
          | CPanic => QPanic
          | COutOfFuel => QFuel
          end
      | _, _ => QStuck
      end
  | _, _, _ => QStuck
  end.

Fixpoint qeval (a : pexpr) (E : penv) (s : st W) {struct a} : pout W pval :=
  match a with
  | XVar x => match pfind x E with Some v => QVal v E s | None => QStuck end
  | XDec n t => QVal (PvInt t n) E s
  | XBits _ n => QVal (PvInt None n) E s
  | XUnit => QVal PvUnit E s
  | XStr _ => QVal PvStr E s
  | XUnexpectedEof => QVal (PvKind (ReKind EOF)) E s
  | XOp op a b => qbind (qeval a E s) (fun va E s => qbind (qeval b E s) (fun vb E s => qop op va vb E s))
  | XAddLine a b => qbind (qeval a E s) (fun va E s => qbind (qeval b E s) (fun vb E s => qop PAdd va vb E s))
  | XNeg a =>
      qbind (qeval a E s) (fun v E s =>
        match v with
        | PvI64 z => if (z =? - Z.of_N two63)%Z then overflow (PvI64 z) E s else QVal (PvI64 (- z)) E s
        | _ => QStuck
        end)
  | XCast a t => qbind (qeval a E s) (fun v E s => match qcast v t with Some v => QVal v E s | None => QStuck end)
  | XParen a | XUnsafe a | XDeref a => qeval a E s
  | XPair a b => qbind (qeval a E s) (fun va E s => qbind (qeval b E s) (fun vb E s => QVal (PvPair va vb) E s))
  | XCall f args | XCallLines f args =>
      qbind (qlist qeval args E s) (fun vs E s => of_pres (qcall f vs s) E)
  | XMethod a m args =>
      qbind (qeval a E s) (fun v E s => qbind (qlist qeval args E s) (fun vs E s => qmethod v m vs E s))
  | XRefMut a => qeval a E s
  | XBytes _ es =>
      qbind (qlist qeval es E s) (fun vs E s => match bytes_of vs with Some bs => QVal (PvBytes bs) E s | None => QStuck end)
  | XZeros n => QVal (PvBytes (repeat 0 (N.to_nat n))) E s
  | XAt x i =>
      match pfind x E with
      | Some (PvBytes bs) => match nth_error bs (N.to_nat i) with Some b => QVal (PvInt (Some U8) b) E s | None => QPanic end
      | _ => QStuck
      end
  | XAll x => match pfind x E with Some (PvBytes bs) => QVal (PvFirst x (lenN bs)) E s | _ => QStuck end
  | XFirst x n =>
      qbind (qeval n E s) (fun v E s =>
        match pfind x E, v with
        | Some (PvBytes bs), PvInt (Some Usize) n => if n <=? lenN bs then QVal (PvFirst x n) E s else QPanic
        | _, _ => QStuck
        end)
  | XTry a =>
      qbind (qeval a E s) (fun v E s => match v with PvOk v => QVal v E s | PvErr e => QRet (PvErr e) s | _ => QStuck end)
  | XReturn a => qbind (qeval a E s) (fun v _ s => QRet v s)
  | XBlock b => qblock b E s
  | XIf c yes no =>
      qbind (qeval c E s) (fun v E s =>
        match v with PvBool true => qblock yes E s | PvBool false => qblock no E s | _ => QStuck end)
  | XMatch a arms =>
      qbind (qeval a E s) (fun v E s =>
        (fix qarms (arms : list parm) : pout W pval :=
           match arms with
           | [] => QStuck
           | QArm p a :: arms' =>
               match qmatch p v with
               | Some (Some bound) => qscoped E (qeval a (bound ++ E) s)
               | Some None => qarms arms'
               | None => QStuck
               end
           end) arms)
  end
with qexec (x : pstmt) (E : penv) (s : st W) {struct x} : pout W unit :=
  match x with
  | QLet _ x a => qbind (qeval a E s) (fun v E s => QVal tt ((x, v) :: E) s)
  | QSub x a =>
      qbind (qeval a E s) (fun v E s =>
        match pfind x E, v with
        | Some (PvInt (Some t) m), PvInt u n =>
            match unify (Some t) u with
            | Some _ => qbind (qsub t m n E s) (fun v E s => QVal tt (pset x v E) s)
            | None => QStuck
            end
        | _, _ => QStuck
        end)
  | QSemi a => qbind (qeval a E s) (fun _ E s => QVal tt E s)
  | QWhile c b =>
      qwhile (fun E s => qbind (qeval c E s) (fun v E s => match v with PvBool b => QVal b E s | _ => QStuck end))
        (fun E s => qblock b E s) rounds E s
  | QLoop b => qwhile (fun E s => QVal true E s) (fun E s => qblock b E s) rounds E s
  | QIf c b =>
      qbind (qeval c E s) (fun v E s =>
        match v with
        | PvBool true => qbind (qblock b E s) (fun _ E s => QVal tt E s)
        | PvBool false => QVal tt E s
        | _ => QStuck
        end)
  | QBlank => QVal tt E s
  end
with qblock (b : pblock) (E : penv) (s : st W) {struct b} : pout W pval :=
  match b with
  | QBlk ss tail =>
      qscoped E (qbind (qlist qexec ss E s) (fun _ E s => match tail with Some a => qeval a E s | None => QVal PvUnit E s end))
  end.
End Run.

(** Calling a function of the file by its name. *)
Fixpoint pbind_params (ps : list pparam) (args : list pval) : option penv :=
  match ps, args with
  | [], [] => Some []
  | p :: ps', v :: args' =>
      match fits (p_type p) v, pbind_params ps' args' with Some v, Some E => Some ((p_name p, v) :: E) | _, _ => None end
  | _, _ => None
  end.
Fixpoint find_pfn (f : string) (fns : list pfn) : option pfn :=
  match fns with [] => None | d :: fns' => if String.eqb f (f_name d) then Some d else find_pfn f fns' end.
Definition returns {W} (t : pty) (x : pres W) : pres W :=
  match x with PresVal v s => match fits t v with Some v => PresVal v s | None => PresStuck end | x => x end.
Fixpoint run_pfn {W} (w : writer W) (rounds : nat) (wraps : bool) (depth : nat) (f : string) (args : list pval) (s : st W) : pres W :=
  match depth with
  | O => PresFuel
  | S depth' =>
      match find_pfn f prelude_fns with
      | Some d =>
          match pbind_params (f_params d) args with
          | Some E => returns (f_ret d) (pres_of (qblock w rounds wraps (run_pfn w rounds wraps depth') (f_body d) E s))
          | None => PresStuck
          end
      | None => PresStuck
      end
  end.

(** Calls from the rest of the file: values in and out. A reader that is passed on ends the use of those made from it. *)
Definition top_fn_name (f : top_fn) : string :=
  match f with
  | FnZigzagEncode => "zigzag_encode" | FnZigzagDecode => "zigzag_decode" | FnVarintSize => "varint_size_from_value"
  | FnSerializeVarint => "serialize_varint" | FnDeserializeVarint => "deserialize_varint"
  | FnFieldHeaderSize => "field_header_size" | FnSerializeFieldHeader => "serialize_field_header"
  | FnDeserializeFieldHeader => "deserialize_field_header" | FnSkip => "skip" | FnFinish => "finish"
  end.
Definition value_in (v : rv) : option pval :=
  match v with
  | RvInt n => Some (PvInt None n)
  | RvI64 z => Some (PvI64 z)
  | RvBool b => Some (PvBool b)
  | RvReader p => Some (PvReader p)
  | RvWriter => Some PvWriter
  | _ => None
  end.
Fixpoint values_in (vs : list rv) : option (list pval) :=
  match vs with
  | [] => Some []
  | v :: vs' => match value_in v, values_in vs' with Some a, Some l => Some (a :: l) | _, _ => None end
  end.
Fixpoint value_out (v : pval) : option rv :=
  match v with
  | PvInt _ n => Some (RvInt n)
  | PvI64 z => Some (RvI64 z)
  | PvUnit => Some RvUnit
  | PvOk v => match value_out v with Some v => Some (RvOk v) | None => None end
  | PvErr e => Some (RvErr e)
  | PvPair a b => match value_out a, value_out b with Some a, Some b => Some (RvPair a b) | _, _ => None end
  | _ => None
  end.
Definition pass_readers {W} (args : list rv) (s : st W) : option (st W) :=
  fold_left (fun o v => match o, v with
                        | Some s, RvReader p => match reader_at p (st_reader s) with Some r => Some (set_reader s r) | None => None end
                        | o, _ => o end) args (Some s).
Definition run_top {W} (w : writer W) (rounds : nat) (wraps : bool) (depth : nat) (f : top_fn) (args : list rv) (s : st W) : fres W :=
  match values_in args, pass_readers args s with
  | Some vs, Some s =>
      match run_pfn w rounds wraps depth (top_fn_name f) vs s with
      | PresVal v s => match value_out v with Some v => FVal v s | None => FStuck end
      | PresPanic => FPanic | PresFuel => FFuel | PresStuck => FStuck
      end
  | _, _ => FStuck
  end.
