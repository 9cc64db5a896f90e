(** Equations for the interpreter of RustSem.v. *)
From Verif Require Import TypesFacts IdentFacts.
From Verif Require Export RustValue.

(** ** Environments *)
Lemma lookup_here {A} x (v : A) E : lookup x ((x, v) :: E) = Some v.
Proof. cbn [lookup]. now rewrite str_eqb_refl. Qed.
Lemma lookup_skip {A} x y (v : A) E : str_eqb x y = false -> lookup x ((y, v) :: E) = lookup x E.
Proof. intros H. cbn [lookup]. now rewrite H. Qed.
Lemma update_here {A} x (v v' : A) E : update x v' ((x, v) :: E) = (x, v') :: E.
Proof. cbn [update]. now rewrite str_eqb_refl. Qed.
Lemma update_skip {A} x y (v v' : A) E : str_eqb x y = false -> update x v' ((y, v) :: E) = (y, v) :: update x v' E.
Proof. intros H. cbn [update]. now rewrite H. Qed.
Lemma update_length {A} x (v : A) E : length (update x v E) = length E.
Proof. induction E as [|[y v'] E IH]; [reflexivity|]. cbn [update]. destruct (str_eqb x y); cbn [length]; auto. Qed.
Lemma str_eqb_sym a b : str_eqb a b = str_eqb b a.
Proof.
  destruct (str_eqb a b) eqn:E1, (str_eqb b a) eqn:E2; auto.
  - apply str_eqb_eq in E1. subst. now rewrite str_eqb_refl in E2.
  - apply str_eqb_eq in E2. subst. now rewrite str_eqb_refl in E1.
Qed.
Lemma str_eqb_neq a b : a <> b -> str_eqb a b = false.
Proof. intros H. destruct (str_eqb a b) eqn:E; [apply str_eqb_eq in E; contradiction|reflexivity]. Qed.
Lemma lookup_app {A} x (B E : list (str * A)) : lookup x (B ++ E) = match lookup x B with Some v => Some v | None => lookup x E end.
Proof. induction B as [|[y v] B IH]; [reflexivity|]. cbn [app lookup]. destruct (str_eqb x y); auto. Qed.
Lemma lookup_none {A} x (l : list (str * A)) : ~ In x (map fst l) -> lookup x l = None.
Proof.
  induction l as [|[y v] l IH]; [reflexivity|]. cbn [map In fst]. intros H. rewrite lookup_skip.
  - apply IH. tauto.
  - apply str_eqb_neq. intros ->. tauto.
Qed.
Lemma lookup_nodup {A} x (v : A) l : NoDup (map fst l) -> In (x, v) l -> lookup x l = Some v.
Proof.
  induction l as [|[y v'] l IH]; [intros _ []|]. cbn [map fst]. intros Hn Hin. inversion Hn as [|? ? Hni Hn']; subst.
  destruct Hin as [H|H].
  - injection H as -> ->. apply lookup_here.
  - rewrite lookup_skip; [auto|]. apply str_eqb_neq. intros ->. apply Hni. now apply (in_map fst) in H.
Qed.
Lemma leave_app (B E E' : env) : length E = length E' -> leave E' (B ++ E) = E.
Proof.
  intros H. unfold leave. rewrite app_length, H. replace (length B + length E' - length E')%nat with (length B) by lia.
  rewrite skipn_app, skipn_all, Nat.sub_diag. reflexivity.
Qed.
Lemma leave_self (E : env) : leave E E = E.
Proof. exact (leave_app [] E E eq_refl). Qed.
Lemma leave1 x (E : env) : leave E (x :: E) = E. Proof. exact (leave_app [x] E E eq_refl). Qed.
Lemma leave2 x y (E : env) : leave E (x :: y :: E) = E. Proof. exact (leave_app [x; y] E E eq_refl). Qed.
Lemma leave_same_length (E E' : env) : length E = length E' -> leave E' E = E.
Proof. exact (leave_app [] E E'). Qed.

Lemma run_list_app {W X A} (g : X -> env -> st W -> out W A) l1 : forall l2 E s,
  run_list g (l1 ++ l2) E s =
    obind (run_list g l1 E s) (fun a E s => obind (run_list g l2 E s) (fun b E s => OVal (a ++ b) E s)).
Proof.
  induction l1 as [|x l1 IH]; intros l2 E s; cbn [app run_list obind].
  - destruct (run_list g l2 E s); reflexivity.
  - destruct (g x E s) as [a E' s'|E' s'|v s'| | |]; cbn [obind]; auto. rewrite IH.
    destruct (run_list g l1 E' s') as [l E2 s2|E2 s2|v s2| | |]; cbn [obind]; auto.
    destruct (run_list g l2 E2 s2); reflexivity.
Qed.
Lemma obind_assoc {W A B C} (x : out W A) (k : A -> env -> st W -> out W B) (k' : B -> env -> st W -> out W C) :
  obind (obind x k) k' = obind x (fun a E s => obind (k a E s) k').
Proof. destruct x; reflexivity. Qed.

(** ** Equations *)
Section Eval.
Context {W : Type} (w : writer W) (rounds : nat) (lim : N) (wraps : bool) (prog : rmod).
Context (call : list str -> str -> fndef -> list rv -> st W -> fres W) (here : list str) (self_type : str).
Notation ev := (eval w rounds lim wraps prog call here self_type).
Notation ex := (exec w rounds lim wraps prog call here self_type).
Notation eb := (eval_block w rounds lim wraps prog call here self_type).

Lemma ev_var x v E s : lookup x E = Some v -> ev (EVar x) E s = OVal v E s.
Proof. intros H. cbn [eval]. now rewrite H. Qed.
Lemma ev_int n sfx E s : ev (EInt n sfx) E s = OVal (RvInt n) E s. Proof. reflexivity. Qed.
Lemma ev_bool b E s : ev (EBool b) E s = OVal (RvBool b) E s. Proof. reflexivity. Qed.
Lemma ev_unit E s : ev EUnit E s = OVal RvUnit E s. Proof. reflexivity. Qed.
Lemma ev_zero E s : ev EZeroF64 E s = OVal (RvF64 0) E s. Proof. reflexivity. Qed.
Lemma ev_none E s : ev ENone E s = OVal (RvOpt None) E s. Proof. reflexivity. Qed.
Lemma ev_missing E s : ev (EMissingFields (length here)) E s = OVal RvUnit E s.
Proof. cbn [eval]. now rewrite Nat.eqb_refl. Qed.
Lemma ev_invalid E s : ev EInvalidData E s = OVal (RvKind (ReKind InvalidData)) E s. Proof. reflexivity. Qed.
Lemma ev_variant t v E s : ev (EVariant t v) E s = OVal (RvEnum (here, t) v []) E s. Proof. reflexivity. Qed.
Definition field_of_value (x : str) (v : rv) : option rv :=
  match v with
  | RvStruct _ fields => lookup x fields
  | RvPair a b => if str_eqb x (txt "0") then Some a else if str_eqb x (txt "1") then Some b else None
  | _ => None
  end.
Lemma ev_field e x E s : ev (EField e x) E s =
  obind (ev e E s) (fun v E s => match field_of_value x v with Some v => OVal v E s | None => OStuck end).
Proof.
  cbn [eval]. destruct (ev e E s) as [v E' s'| | | | |]; auto. cbn [obind]. destruct v; cbn [field_of_value]; auto.
  destruct (str_eqb x (txt "0")); auto. destruct (str_eqb x (txt "1")); auto.
Qed.
Lemma ev_top f args E s : ev (ECall (CTop (length here) f) args) E s =
  obind (run_list ev args E s) (fun vs E s => of_fres (call_top w rounds f vs s) E).
Proof.
  change (ev (ECall (CTop (length here) f) args) E s) with
    (obind (run_list ev args E s) (fun vs E s => if Nat.eqb (length here) (length here) then of_fres (call_top w rounds f vs s) E else OStuck)).
  now rewrite Nat.eqb_refl.
Qed.
Definition reading (f : std_fn) : bool := match f with FnReadExact | FnReadToEnd | FnReadToString => true | _ => false end.
Lemma ev_std f args E s : reading f = false -> ev (ECall (CStd f) args) E s =
  obind (run_list ev args E s) (fun vs E s => of_fres (call_std f vs s) E).
Proof. destruct f; try discriminate; reflexivity. Qed.
Lemma ev_std_lines f args E s : ev (ECallLines (CStd f) args) E s =
  obind (run_list ev args E s) (fun vs E s => of_fres (call_std f vs s) E).
Proof. reflexivity. Qed.
Definition read_call (f : std_fn) (r : expr) (x : str) (E : env) (s : st W) : out W rv :=
  obind (ev r E s) (fun v E s =>
    match v, lookup x E with
    | RvReader p, Some old =>
        let (new, result) := read_into rounds f p old s in of_fres result (match new with Some v => update x v E | None => E end)
    | _, _ => OStuck
    end).
Lemma ev_read f r x E s : reading f = true -> ev (ECall (CStd f) [r; ERef true (EVar x)]) E s = read_call f r x E s.
Proof. destruct f; try discriminate; reflexivity. Qed.
Lemma ev_read_whole r x E s : ev (ECall (CStd FnReadExact) [r; ERef true (EWhole (EVar x))]) E s = read_call FnReadExact r x E s.
Proof. reflexivity. Qed.
Lemma ev_deser path args E s : ev (ECall (CDeserialize path) args) E s =
  obind (run_list ev args E s) (fun vs E s =>
    match deserializer prog here self_type path with
    | Some t =>
        match method prog t (txt "deserialize_from_reader_ref") with
        | Some f => of_fres (call (fst t) (snd t) f vs s) E
        | None => OStuck
        end
    | None => OStuck
    end).
Proof. reflexivity. Qed.
Lemma ev_con t v args E s : ev (ECall (CVariant t v) args) E s =
  obind (run_list ev args E s) (fun vs E s => OVal (RvEnum (here, t) v vs) E s).
Proof. reflexivity. Qed.
Lemma ev_local x args E s : ev (ECall (CLocal x) args) E s =
  obind (run_list ev args E s) (fun vs E s =>
    match lookup x E with Some (RvFn f) => of_fres (call here self_type f vs s) E | _ => OStuck end).
Proof. reflexivity. Qed.

Definition changing (m : meth) : bool := match m with MPush | MGetOrInsert | MReserveExact => true | _ => false end.
Definition with_closure (m : meth) : bool := match m with MMap | MMapOr | MFold => true | _ => false end.
Lemma ev_method m e args E s : changing m = false -> with_closure m = false -> ev (EMethod e m args) E s =
  obind (ev e E s) (fun self E s => obind (run_list ev args E s) (fun vs E s =>
    of_fres
      (match m, vs with
       | MAtlas, _ | MSize, _ | MSerializeWithAtlas, _ => call_own prog call m self vs s
       | MInto, [] => call_into prog call self s
       | _, _ => call_method w rounds m self vs s
       end) E)).
Proof. destruct m; try discriminate; reflexivity. Qed.
Lemma ev_change m x a E s : changing m = true -> ev (EMethod (EVar x) m [a]) E s =
  obind (ev a E s) (fun v E s =>
    match lookup x E with
    | Some old =>
        match change lim m old v with
        | Some (OVal new _ _) => OVal RvUnit (update x new E) s
        | Some OPanic => OPanic
        | _ => OStuck
        end
    | None => OStuck
    end).
Proof. destruct m; try discriminate; reflexivity. Qed.
Lemma ev_map e x body E s : ev (EMethod e MMap [EClosure [x] body]) E s =
  obind (ev e E s) (fun v E s =>
    match v with
    | RvOpt None => OVal v E s
    | RvOpt (Some v) => obind (closed E (ev body ((x, v) :: E) s)) (fun v E s => OVal (RvOpt (Some v)) E s)
    | RvIter l => obind (run_list (fun v E s => closed E (ev body ((x, v) :: E) s)) l E s) (fun l E s => OVal (RvIter l) E s)
    | _ => OStuck
    end).
Proof. reflexivity. Qed.
Lemma ev_map_or e d x body E s : ev (EMethod e MMapOr [d; EClosure [x] body]) E s =
  obind (ev e E s) (fun v E s => obind (ev d E s) (fun d E s =>
    match v with
    | RvOpt None => OVal d E s
    | RvOpt (Some v) => closed E (ev body ((x, v) :: E) s)
    | _ => OStuck
    end)).
Proof. reflexivity. Qed.
Lemma ev_fold e a x y body E s : ev (EMethod e MFold [a; EClosure [x; y] body]) E s =
  obind (ev e E s) (fun v E s => obind (ev a E s) (fun a E s =>
    match v with
    | RvIter l => run_fold (fun a v E s => closed E (ev body ((y, v) :: (x, a) :: E) s)) l a E s
    | _ => OStuck
    end)).
Proof. reflexivity. Qed.
Lemma ev_ref m e E s : ev (ERef m e) E s = ev e E s. Proof. reflexivity. Qed.
Lemma ev_deref e E s : ev (EDeref e) E s = ev e E s. Proof. reflexivity. Qed.
Lemma ev_paren e E s : ev (EParen e) E s = ev e E s. Proof. reflexivity. Qed.
Definition bin_value (op : binop) (x y : N) (E : env) (s : st W) : out W rv :=
  match op with
  | OpAdd => arith wraps (x + y) E s
  | OpMul => arith wraps (x * y) E s
  | OpEq => OVal (RvBool (x =? y)) E s
  | OpNe => OVal (RvBool (negb (x =? y))) E s
  end.
Lemma ev_bin op a b E s : ev (EBin op a b) E s =
  obind (ev a E s) (fun va E s => obind (ev b E s) (fun vb E s =>
    match va, vb with RvInt x, RvInt y => bin_value op x y E s | _, _ => OStuck end)).
Proof. reflexivity. Qed.
Lemma ev_cast e t E s : ev (ECast e t) E s = obind (ev e E s) (fun v E s => match v with RvInt _ => OVal v E s | _ => OStuck end).
Proof. reflexivity. Qed.
Lemma ev_pair a b E s : ev (EPair a b) E s = obind (ev a E s) (fun va E s => obind (ev b E s) (fun vb E s => OVal (RvPair va vb) E s)).
Proof. reflexivity. Qed.
Lemma ev_try e E s : ev (ETry e) E s = obind (ev e E s) (fun v E s =>
  match v with RvOk v => OVal v E s | RvErr x => OReturn (RvErr x) s | _ => OStuck end).
Proof. reflexivity. Qed.
Lemma ev_block b E s : ev (EBlock b) E s = eb b E s. Proof. reflexivity. Qed.
Lemma ev_if c y n E s : ev (EIf c y n) E s = obind (ev c E s) (fun v E s =>
  match v with RvBool true => eb y E s | RvBool false => eb n E s | _ => OStuck end).
Proof. reflexivity. Qed.
Section Arms.
  Context (v : rv) (E : env) (s : st W).
  Fixpoint run_arms (arms : list arm) : out W rv :=
    match arms with
    | [] => OStuck
    | Arm p body :: arms' =>
        match match_pat here p v with
        | Some bound => scoped E (ev body (bound ++ E) s)
        | None => run_arms arms'
        end
    end.
End Arms.
Lemma ev_match i e arms E s : ev (EMatch i e arms) E s = obind (ev e E s) (fun v E s => run_arms v E s arms).
Proof. reflexivity. Qed.
Lemma arms_skip v E s p body arms : match_pat here p v = None -> run_arms v E s (Arm p body :: arms) = run_arms v E s arms.
Proof. intros H. cbn [run_arms]. now rewrite H. Qed.
Lemma arms_take v E s p body arms bound : match_pat here p v = Some bound ->
  run_arms v E s (Arm p body :: arms) = scoped E (ev body (bound ++ E) s).
Proof. intros H. cbn [run_arms]. now rewrite H. Qed.
Lemma ev_struct t fields E s : ev (EStruct t fields) E s =
  obind (run_list (fun f E s => obind (ev (snd f) E s) (fun v E s => OVal (fst f, v) E s)) fields E s)
    (fun fields E s => OVal (RvStruct (here, t) fields) E s).
Proof. reflexivity. Qed.
Fixpoint run_sum (terms : list expr) (v : rv) (E : env) (s : st W) : out W rv :=
  match terms with
  | [] => OVal v E s
  | b :: terms' =>
      obind (ev b E s) (fun vb E s =>
        match v, vb with
        | RvInt x, RvInt y => obind (arith wraps (x + y) E s) (fun v E s => run_sum terms' v E s)
        | _, _ => OStuck
        end)
  end.
Lemma ev_sum terms E s : ev (ESum terms) E s =
  match terms with [] => OVal (RvInt 0) E s | a :: terms' => obind (ev a E s) (fun v E s => run_sum terms' v E s) end.
Proof. destruct terms; reflexivity. Qed.
Fixpoint run_ors (terms : list expr) (E : env) (s : st W) : out W rv :=
  match terms with
  | [] => OVal (RvBool false) E s
  | a :: terms' =>
      obind (ev a E s) (fun v E s =>
        match v with RvBool true => OVal v E s | RvBool false => run_ors terms' E s | _ => OStuck end)
  end.
Lemma ev_ors terms E s : ev (EOrs terms) E s = run_ors terms E s. Proof. reflexivity. Qed.
Lemma ev_zeros n E s : ev (EZeros n) E s = OVal (RvBytes (repeat 0 (N.to_nat n))) E s. Proof. reflexivity. Qed.
Lemma ev_vec_empty E s : ev EVecEmpty E s = OVal (RvBytes []) E s. Proof. reflexivity. Qed.
Lemma ev_vec_units e E s : ev (EVecUnits e) E s = obind (ev e E s) (fun v E s => match v with RvInt n => OVal (RvUnits n) E s | _ => OStuck end).
Proof. reflexivity. Qed.
Lemma ev_panic E s : ev EPanic E s = OPanic. Proof. reflexivity. Qed.
Lemma ev_return e E s : ev (EReturn e) E s = obind (ev e E s) (fun v _ s => OReturn v s). Proof. reflexivity. Qed.
Lemma ev_break E s : ev EBreak E s = OBreak E s. Proof. reflexivity. Qed.

Lemma ex_let m p t e E s : ex (SLet m p t e) E s = obind (ev e E s) (fun v E s =>
  match match_pat here p v with Some bound => OVal tt (bound ++ E) s | None => OStuck end).
Proof. reflexivity. Qed.
Lemma ex_let_var m r x t e E s : ex (SLet m (PVar r x) t e) E s = obind (ev e E s) (fun v E s => OVal tt ((x, v) :: E) s).
Proof. reflexivity. Qed.
Lemma ex_semi e E s : ex (SSemi e) E s = obind (ev e E s) (fun _ E s => OVal tt E s). Proof. reflexivity. Qed.
Lemma ex_expr e E s : ex (SExpr e) E s = obind (ev e E s) (fun _ E s => OVal tt E s). Proof. reflexivity. Qed.
Lemma ex_for p e b E s : ex (SFor p e b) E s = obind (ev e E s) (fun v E s =>
  match v with
  | RvVec l | RvIter l =>
      run_for (fun v E s =>
        match match_pat here p v with
        | Some bound => scoped E (obind (eb b (bound ++ E) s) (fun _ E s => OVal tt E s))
        | None => OStuck
        end) l E s
  | _ => OStuck
  end).
Proof. reflexivity. Qed.
Lemma ex_loop b E s : ex (SLoop b) E s = run_loop (fun E s => obind (eb b E s) (fun _ E s => OVal tt E s)) rounds E s.
Proof. reflexivity. Qed.
Lemma ex_if c b E s : ex (SIf c b) E s = obind (ev c E s) (fun v E s =>
  match v with
  | RvBool true => obind (eb b E s) (fun _ E s => OVal tt E s)
  | RvBool false => OVal tt E s
  | _ => OStuck
  end).
Proof. reflexivity. Qed.
Lemma ex_if_let p e b E s : ex (SIfLet p e b) E s = obind (ev e E s) (fun v E s =>
  match match_pat here p v with
  | Some bound => scoped E (obind (eb b (bound ++ E) s) (fun _ E s => OVal tt E s))
  | None => OVal tt E s
  end).
Proof. reflexivity. Qed.
Lemma ex_fn f E s : ex (SFn f) E s = OVal tt ((fn_name f, RvFn f) :: E) s. Proof. reflexivity. Qed.
Lemma ex_blank E s : ex SBlank E s = OVal tt E s. Proof. reflexivity. Qed.
Lemma eb_eq i ss tail E s : eb (Blk i ss tail) E s =
  scoped E (obind (run_list ex ss E s) (fun _ E s => match tail with Some e => ev e E s | None => OVal RvUnit E s end)).
Proof. reflexivity. Qed.
End Eval.

Lemma run_nil {W X A} (g : X -> env -> st W -> out W A) E s : run_list g [] E s = OVal [] E s. Proof. reflexivity. Qed.
Lemma run_cons {W X A} (g : X -> env -> st W -> out W A) x l E s : run_list g (x :: l) E s =
  obind (g x E s) (fun a E s => obind (run_list g l E s) (fun l E s => OVal (a :: l) E s)).
Proof. reflexivity. Qed.

(** Calls. *)
Section Calls.
Context {W : Type} (w : writer W) (rounds : nat) (lim : N) (wraps : bool) (prog : rmod) (d : nat) (here : list str) (self_type : str).
Notation body_of := (eval_block w rounds lim wraps prog (run_fn w rounds lim wraps prog d) here self_type).
Lemma run_self p n b l ret body v s : run_fn w rounds lim wraps prog (S d) here self_type (FnDef p n b l [ParSelf] ret body) [v] s =
  fn_result (body_of body [(txt "self", v)] s).
Proof. reflexivity. Qed.
Lemma run_one p n b l m x t ret body v s : run_fn w rounds lim wraps prog (S d) here self_type (FnDef p n b l [Par m x t] ret body) [v] s =
  fn_result (body_of body [(x, v)] s).
Proof. reflexivity. Qed.
Lemma run_two p n b l m x t ret body v1 v2 s :
  run_fn w rounds lim wraps prog (S d) here self_type (FnDef p n b l [ParSelf; Par m x t] ret body) [v1; v2] s =
  fn_result (body_of body [(x, v2); (txt "self", v1)] s).
Proof. reflexivity. Qed.
Lemma run_three p n b l m x t m' x' t' ret body v1 v2 v3 s :
  run_fn w rounds lim wraps prog (S d) here self_type (FnDef p n b l [ParSelf; Par m x t; Par m' x' t'] ret body) [v1; v2; v3] s =
  fn_result (body_of body [(x', v3); (x, v2); (txt "self", v1)] s).
Proof. reflexivity. Qed.
End Calls.

#[global] Opaque eval exec eval_block run_fn.

(** Looking up a variable whose name is known. *)
Ltac lk := repeat (first [rewrite lookup_here | rewrite lookup_skip by reflexivity]); try reflexivity; try eassumption.

Ltac ev_expr e :=
  lazymatch e with
  | EVar _ => rewrite ev_var with (v := _) by lk
  | EInt _ _ => rewrite ev_int | EBool _ => rewrite ev_bool | EUnit => rewrite ev_unit | EZeroF64 => rewrite ev_zero
  | ENone => rewrite ev_none | EMissingFields _ => rewrite ev_missing | EInvalidData => rewrite ev_invalid
  | EVariant _ _ => rewrite ev_variant | EField _ _ => rewrite ev_field
  | ECall (CTop _ _) _ => rewrite ev_top
  | ECall (CStd FnReadExact) [_; ERef true (EWhole _)] => rewrite ev_read_whole
  | ECall (CStd _) _ => first [rewrite ev_std by reflexivity | rewrite ev_read by reflexivity]
  | ECallLines _ _ => rewrite ev_std_lines
  | ECall (CDeserialize _) _ => rewrite ev_deser | ECall (CVariant _ _) _ => rewrite ev_con | ECall (CLocal _) _ => rewrite ev_local
  | EMethod _ MMap _ => rewrite ev_map | EMethod _ MMapOr _ => rewrite ev_map_or | EMethod _ MFold _ => rewrite ev_fold
  | EMethod _ _ _ => first [rewrite ev_change by reflexivity | rewrite ev_method by reflexivity]
  | ERef _ _ => rewrite ev_ref | EDeref _ => rewrite ev_deref | EParen _ => rewrite ev_paren | EBin _ _ _ => rewrite ev_bin
  | ECast _ _ => rewrite ev_cast | EPair _ _ => rewrite ev_pair | ETry _ => rewrite ev_try | EBlock _ => rewrite ev_block
  | EIf _ _ _ => rewrite ev_if | EMatch _ _ _ => rewrite ev_match | EStruct _ _ => rewrite ev_struct | ESum _ => rewrite ev_sum
  | EOrs _ => rewrite ev_ors | EZeros _ => rewrite ev_zeros | EVecEmpty => rewrite ev_vec_empty | EVecUnits _ => rewrite ev_vec_units
  | EPanic => rewrite ev_panic | EReturn _ => rewrite ev_return | EBreak => rewrite ev_break
  end.
Ltac ev_stmt x :=
  lazymatch x with
  | SLet _ (PVar _ _) _ _ => rewrite ex_let_var | SLet _ _ _ _ => rewrite ex_let | SSemi _ => rewrite ex_semi | SExpr _ => rewrite ex_expr
  | SFor _ _ _ => rewrite ex_for | SLoop _ => rewrite ex_loop | SIf _ _ => rewrite ex_if | SIfLet _ _ _ => rewrite ex_if_let
  | SFn _ => rewrite ex_fn | SBlank => rewrite ex_blank
  end.
Ltac ev_step :=
  match goal with
  | |- context [eval _ _ _ _ _ _ _ _ ?e ?E ?s] => ev_expr e
  | |- context [exec _ _ _ _ _ _ _ _ ?x ?E ?s] => ev_stmt x
  | |- context [eval_block _ _ _ _ _ _ _ _ (Blk _ _ _) ?E ?s] => rewrite eb_eq
  | |- context [run_list ?g (_ :: _) ?E ?s] => rewrite (run_cons g)
  | |- context [run_list ?g [] ?E ?s] => rewrite (run_nil g)
  end.
