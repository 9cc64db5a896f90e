(** Typing rules for the functions at the top of the generated Rust file (RustPrelude.v), after the Rust reference (4 types, 6
    patterns, 8 expressions, 10.1 type system) and the documentation of the standard library. Definitions only.

    A judgement goes from the variables before an expression to the variables after it: using a reader again ends the loans
    of it, so a slice that [fill_buf] gave cannot be used any more. [usize] has 64 bits. The mistakes that the compiler finds
    in constants and does not compile are not typed either: literals that do not fit, shifts by too many bits, and places
    outside of an array. *)
From Verif Require Export RustPrelude.
Local Open Scope string_scope.
Local Open Scope list_scope.
Local Open Scope N_scope.

Inductive kind :=
| KInt (t : ity) | KBool | KUnit
| KStr                                      (** [&'static str] *)
| KErrorKind | KError                       (** [io::ErrorKind], [io::Error] *)
| KResult (k : kind)                        (** [io::Result] *)
| KPair (a b : kind)
| KArray (n : N) | KArrayRef (n : N)        (** [[u8; n]], [&[u8; n]] *)
| KSlice (of : string)                      (** [&[u8]], borrowed from what the variable refers to *)
| KSliceMut                                 (** [&mut [u8]] *)
| KStream (bound : string).                 (** [&mut T], where [T : bound] *)
Definition copy (k : kind) : bool :=
  match k with KInt _ | KBool | KUnit | KStr | KErrorKind | KArray _ | KArrayRef _ | KSlice _ => true | _ => false end.
Definition width (t : ity) : N := match t with U8 => 8 | U32 => 32 | U64 | Usize | I64 => 64 end.
Definition signed (t : ity) : bool := match t with I64 => true | _ => false end.
(** The largest number of a type. *)
Definition largest (t : ity) : N := if signed t then 2 ^ (width t - 1) - 1 else 2 ^ width t - 1.

(** ** Variables *)
Record slot := mkSlot { s_mut : bool; s_usable : bool; s_kind : kind }.
Definition tenv := list (string * slot).
Fixpoint find_var (x : string) (G : tenv) : option slot :=
  match G with [] => None | (y, s) :: G => if String.eqb x y then Some s else find_var x G end.
Definition variable (G : tenv) (x : string) (m : bool) (k : kind) : Prop := find_var x G = Some (mkSlot m true k).
(** What the variable refers to is changed, or borrowed to be changed: what was borrowed from it before must not be used. *)
Definition end_loan (x : string) (s : slot) : slot :=
  match s_kind s with KSlice y => if String.eqb x y then mkSlot (s_mut s) false (s_kind s) else s | _ => s end.
Definition end_loans (x : string) (G : tenv) : tenv := map (fun e => (fst e, end_loan x (snd e))) G.
Definition leave (G G' : tenv) : tenv := skipn (length G' - length G) G'.

(** [refers G a x bound]: [a] is the [&mut T] in the variable [x], or is borrowed from it again. *)
Inductive refers : tenv -> pexpr -> string -> string -> Prop :=
| rf_var G x m bound : variable G x m (KStream bound) -> refers G (XVar x) x bound
| rf_again G a x bound : refers G a x bound -> refers G (XRefMut (XDeref a)) x bound
| rf_paren G a x bound : refers G a x bound -> refers G (XParen a) x bound.
(** Loans that have ended in one branch have ended after it. *)
Inductive forgets : tenv -> tenv -> Prop :=
| fg_nil : forgets [] []
| fg_same e G G' : forgets G G' -> forgets (e :: G) (e :: G')
| fg_ended x m k u G G' : forgets G G' -> forgets ((x, mkSlot m u k) :: G) ((x, mkSlot m false k) :: G').

(** ** Functions *)
Fixpoint param_kind (bound : option string) (t : pty) : option kind :=
  match t with
  | YInt t => Some (KInt t)
  | YBool => Some KBool
  | YUnit => Some KUnit
  | YGeneric => option_map KStream bound
  | YResult t => option_map KResult (param_kind bound t)
  | YPair a b => match param_kind bound a, param_kind bound b with Some a, Some b => Some (KPair a b) | _, _ => None end
  end.
(** The standard library: functions, and methods of values. *)
Inductive std_fun : pfun -> list kind -> kind -> Prop :=
| sf_u64_from t : In t [U8; U32; U64] -> std_fun XU64From [KInt t] (KInt U64)
| sf_from_le : std_fun XFromLe [KArray 8] (KInt U64)
| sf_min t : std_fun XMin [KInt t; KInt t] (KInt t)
| sf_ok k : std_fun XOk [k] (KResult k)
| sf_err k : std_fun XErr [KError] (KResult k)
| sf_error_new : std_fun XErrorNew [KErrorKind; KStr] KError.
Inductive value_method : kind -> pmeth -> list kind -> kind -> Prop :=
| vm_zeros t : value_method (KInt t) XTrailingZeros [] (KInt U32)
| vm_wrapping t : value_method (KInt t) XWrappingAdd [KInt t] (KInt t)
| vm_empty x : value_method (KSlice x) XIsEmpty [] KBool
| vm_len x : value_method (KSlice x) XLen [] (KInt Usize).
(** Methods of readers and writers; [x] is the variable that refers to it. *)
Inductive stream_method (x : string) : string -> pmeth -> list kind -> kind -> Prop :=
| sm_write_all n : stream_method x "Write" XWriteAll [KArrayRef n] (KResult KUnit)
| sm_read_exact : stream_method x "BufRead" XReadExact [KSliceMut] (KResult KUnit)
| sm_fill_buf : stream_method x "BufRead" XFillBuf [] (KResult (KSlice x))
| sm_consume : stream_method x "BufRead" XConsume [KInt Usize] KUnit.

(** ** Patterns *)
Definition pat_kind (k : kind) (p : ppat) : Prop :=
  match p, k with
  | QDec n, KInt t => n <= largest t
  | QBits digits n, KInt t => n < 2 ^ N.of_nat digits /\ n <= largest t
  | QRange lo hi t', KInt t => t' = t /\ lo <= hi /\ hi <= largest t
  | QVar _, _ | QWild, _ => True
  | _, _ => False
  end.
Definition pat_binds (k : kind) (p : ppat) : tenv := match p with QVar x => [(x, mkSlot false true k)] | _ => [] end.
(** The numbers that a pattern is for. *)
Definition matches (p : ppat) (n : N) : Prop :=
  match p with QDec m | QBits _ m => n = m | QRange lo hi _ => lo <= n <= hi | QVar _ | QWild => True end.
Definition exhaustive (t : ity) (ps : list ppat) : Prop := signed t = false /\ forall n, n <= largest t -> Exists (fun p => matches p n) ps.
Definition arm_pat (a : parm) : ppat := match a with QArm p _ => p end.

(** ** Expressions *)
Record ctx := mkCtx { fns : list pfn; returns : kind; is_unsafe : bool }.

Inductive has : ctx -> tenv -> pexpr -> kind -> tenv -> Prop :=
| h_var c G x m k : variable G x m k -> copy k = true -> has c G (XVar x) k G
| h_dec c G n t : n <= largest t -> has c G (XDec n (Some t)) (KInt t) G
| h_dec_any c G n t : n <= largest t -> has c G (XDec n None) (KInt t) G
| h_bits c G d n t : n < 2 ^ N.of_nat d -> n <= largest t -> has c G (XBits d n) (KInt t) G
| h_unit c G : has c G XUnit KUnit G
| h_str c G s : has c G (XStr s) KStr G
| h_eof c G : has c G XUnexpectedEof KErrorKind G
| h_shift c G op a b t t' G1 G2 : op = PShl \/ op = PShr -> has c G a (KInt t) G1 -> has c G1 b (KInt t') G2 ->
    match b with XDec n _ => n < width t | _ => True end -> has c G (XOp op a b) (KInt t) G2
| h_arith c G op a b t G1 G2 : In op [PXor; POr; PAnd; PAdd] -> has c G a (KInt t) G1 -> has c G1 b (KInt t) G2 ->
    has c G (XOp op a b) (KInt t) G2
| h_greater c G a b t G1 G2 : has c G a (KInt t) G1 -> has c G1 b (KInt t) G2 -> has c G (XOp PGt a b) KBool G2
| h_add_line c G a b t G1 G2 : has c G a (KInt t) G1 -> has c G1 b (KInt t) G2 -> has c G (XAddLine a b) (KInt t) G2
| h_neg c G a t G' : signed t = true -> has c G a (KInt t) G' -> has c G (XNeg a) (KInt t) G'
| h_cast c G a t t' G' : has c G a (KInt t) G' -> has c G (XCast a t') (KInt t') G'
| h_paren c G a k G' : has c G a k G' -> has c G (XParen a) k G'
| h_pair c G a b k l G1 G2 : has c G a k G1 -> has c G1 b l G2 -> has c G (XPair a b) (KPair k l) G2
| h_transmute c G a b t G' : is_unsafe c = true -> width a = width b -> has c G t (KInt a) G' ->
    has c G (XCall (XTransmute a b) [t]) (KInt b) G'
| h_std c G f args ks k G' : std_fun f ks k -> all_have c G args ks G' -> has c G (XCall f args) k G'
| h_own c G f args fn ks k G' : In fn (fns c) -> f_name fn = f -> Forall2 (fun p k => param_kind (f_bound fn) (p_type p) = Some k) (f_params fn) ks ->
    param_kind (f_bound fn) (f_ret fn) = Some k -> passes c G args ks G' -> has c G (XCall (XOwn f) args) k G'
| h_lines c G f args k G' : has c G (XCall f args) k G' -> has c G (XCallLines f args) k G'
| h_method c G a m args ka ks k G1 G2 : value_method ka m ks k -> has c G a ka G1 -> all_have c G1 args ks G2 -> has c G (XMethod a m args) k G2
(** What is borrowed is used when the arguments have been evaluated. *)
| h_stream c G a m args x bound ks k G' : refers G a x bound -> stream_method x bound m ks k -> all_have c G args ks G' ->
    has c G (XMethod a m args) k (end_loans x G')
| h_whole c G x n : variable G x true (KArray n) -> has c G (XRefMut (XAll x)) KSliceMut G
| h_first c G x n a G' : has c G a (KInt Usize) G' -> variable G' x true (KArray n) -> has c G (XRefMut (XFirst x a)) KSliceMut G'
| h_bytes c G lines es n G' : n = N.of_nat (length es) -> all_have c G es (repeat (KInt U8) (length es)) G' -> has c G (XBytes lines es) (KArrayRef n) G'
| h_zeros c G n : has c G (XZeros n) (KArray n) G
| h_at_array c G x i m n : variable G x m (KArray n) -> i < n -> has c G (XAt x i) (KInt U8) G
| h_at_slice c G x i m y : variable G x m (KSlice y) -> has c G (XAt x i) (KInt U8) G
| h_try c G a k r G' : returns c = KResult r -> has c G a (KResult k) G' -> has c G (XTry a) k G'
| h_return c G a k G' : has c G a (returns c) G' -> has c G (XReturn a) k G'
| h_unsafe c G a k G' : has (mkCtx (fns c) (returns c) true) G a k G' -> has c G (XUnsafe a) k G'
| h_block c G b k G' : block_has c G b k G' -> has c G (XBlock b) k G'
| h_if c G a yes no k G1 G' : has c G a KBool G1 -> block_has c G1 yes k G' -> block_has c G1 no k G' -> has c G (XIf a yes no) k G'
| h_match c G a arms t k G1 G' : has c G a (KInt t) G1 -> arms_have c G1 (KInt t) arms k G' -> exhaustive t (map arm_pat arms) ->
    has c G (XMatch a arms) k G'
with all_have : ctx -> tenv -> list pexpr -> list kind -> tenv -> Prop :=
| al_nil c G : all_have c G [] [] G
| al_cons c G a args k ks G1 G2 : has c G a k G1 -> all_have c G1 args ks G2 -> all_have c G (a :: args) (k :: ks) G2
(** Arguments of the functions of the file: a [&mut T] is borrowed again, and no longer than for the call. *)
with passes : ctx -> tenv -> list pexpr -> list kind -> tenv -> Prop :=
| ps_nil c G : passes c G [] [] G
| ps_cons c G a args k ks G1 G2 : has c G a k G1 -> passes c G1 args ks G2 -> passes c G (a :: args) (k :: ks) G2
| ps_stream c G a args x bound ks G' : refers G a x bound -> passes c G args ks G' ->
    passes c G (a :: args) (KStream bound :: ks) (end_loans x G')
with arms_have : ctx -> tenv -> kind -> list parm -> kind -> tenv -> Prop :=
| ar_nil c G k r G' : arms_have c G k [] r G'
| ar_cons c G k p a arms r G1 G' : pat_kind k p -> has c (pat_binds k p ++ G) a r G1 -> forgets (leave G G1) G' -> arms_have c G k arms r G' ->
    arms_have c G k (QArm p a :: arms) r G'
(** [true]: what follows is not reached. *)
with stmt_has : ctx -> tenv -> pstmt -> tenv -> bool -> Prop :=
| st_let c G m x a k G' : has c G a k G' -> stmt_has c G (QLet m x a) ((x, mkSlot m true k) :: G') false
| st_sub c G x a t G' : has c G a (KInt t) G' -> variable G' x true (KInt t) -> stmt_has c G (QSub x a) G' false
| st_semi c G a k G' : has c G a k G' -> stmt_has c G (QSemi a) G' (match a with XReturn _ => true | _ => false end)
| st_while c G a b : has c G a KBool G -> block_has c G b KUnit G -> stmt_has c G (QWhile a b) G false
| st_loop c G b : block_has c G b KUnit G -> stmt_has c G (QLoop b) G true
| st_if c G a b G1 G2 : has c G a KBool G1 -> block_has c G1 b KUnit G2 -> forgets G1 G2 -> stmt_has c G (QIf a b) G2 false
| st_blank c G : stmt_has c G QBlank G false
with stmts_have : ctx -> tenv -> list pstmt -> tenv -> bool -> Prop :=
| ss_nil c G : stmts_have c G [] G false
| ss_cons c G s ss G1 G2 d d' : stmt_has c G s G1 d -> stmts_have c G1 ss G2 d' -> stmts_have c G (s :: ss) G2 (d || d')
with block_has : ctx -> tenv -> pblock -> kind -> tenv -> Prop :=
| bl_value c G ss a k d G1 G2 G' : stmts_have c G ss G1 d -> has c G1 a k G2 -> forgets (leave G G2) G' -> block_has c G (QBlk ss (Some a)) k G'
| bl_unit c G ss d G1 G' : stmts_have c G ss G1 d -> forgets (leave G G1) G' -> block_has c G (QBlk ss None) KUnit G'
| bl_diverges c G ss k G1 G' : stmts_have c G ss G1 true -> block_has c G (QBlk ss None) k G'.

(** ** The file *)
Inductive fn_has (all : list pfn) (f : pfn) : Prop :=
| fn_ok ks r G' : match f_bound f with Some b => In b ["Write"; "BufRead"] | None => True end ->
    NoDup (map p_name (f_params f)) ->
    Forall2 (fun p k => param_kind (f_bound f) (p_type p) = Some k) (f_params f) ks ->
    param_kind (f_bound f) (f_ret f) = Some r ->
    block_has (mkCtx all r false) (map (fun pk => (p_name (fst pk), mkSlot (p_mutable (fst pk)) true (snd pk))) (combine (f_params f) ks)) (f_body f) r G' ->
    fn_has all f.
Definition functions_typed (all : list pfn) : Prop := NoDup (map f_name all) /\ Forall (fn_has all) all.
