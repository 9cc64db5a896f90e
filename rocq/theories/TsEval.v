(** Equations for the interpreter of TsSem.v. *)
From Verif Require Import TypesFacts IdentFacts BaseFacts.
From Verif Require Export TsText TsSem.
From Verif Require Import RustEval.

(** ** Variables *)
Lemma lookup_update {A} y x (s : A) E : lookup y (update x s E) =
  if str_eqb y x then match lookup y E with Some _ => Some s | None => None end else lookup y E.
Proof.
  induction E as [|[z t] E IH]; cbn [update lookup]; [now destruct (str_eqb y x)|].
  destruct (str_eqb x z) eqn:Ez; cbn [lookup].
  - apply str_eqb_eq in Ez. subst z. destruct (str_eqb y x) eqn:Ey; reflexivity.
  - rewrite IH. destruct (str_eqb y z) eqn:Eyz; [|reflexivity]. apply str_eqb_eq in Eyz. subst z.
    rewrite str_eqb_sym, Ez. reflexivity.
Qed.
Lemma lookup_updated {A} x (s t : A) E : lookup x E = Some t -> lookup x (update x s E) = Some s.
Proof. intros H. rewrite lookup_update, str_eqb_refl, H. reflexivity. Qed.
Lemma lookup_other {A} y x (s : A) E : str_eqb y x = false -> lookup y (update x s E) = lookup y E.
Proof. intros H. now rewrite lookup_update, H. Qed.
Lemma update_twice {A} x (s t : A) E : update x s (update x t E) = update x s E.
Proof.
  induction E as [|[z r] E IH]; [reflexivity|]. cbn [update]. destruct (str_eqb x z) eqn:Ez; cbn [update]; rewrite Ez; [reflexivity|now rewrite IH].
Qed.
Lemma update_names {A} x (s : A) E : map fst (update x s E) = map fst E.
Proof. induction E as [|[z r] E IH]; [reflexivity|]. cbn [update]. destruct (str_eqb x z); cbn [map fst]; [reflexivity|now rewrite IH]. Qed.
Lemma update_same {A} x (s : A) E : lookup x E = Some s -> update x s E = E.
Proof.
  induction E as [|[z r] E IH]; [reflexivity|]. cbn [lookup update]. destruct (str_eqb x z) eqn:Ez.
  - now intros [= ->].
  - intros H. now rewrite IH.
Qed.
Lemma update_comm {A} x y (s t : A) E : str_eqb x y = false -> update x s (update y t E) = update y t (update x s E).
Proof.
  intros H. induction E as [|[z r] E IH]; [reflexivity|]. cbn [update].
  destruct (str_eqb y z) eqn:Ey, (str_eqb x z) eqn:Ex; cbn [update]; rewrite ?Ex, ?Ey; try reflexivity; [|now rewrite IH].
  apply str_eqb_eq in Ex, Ey. subst. now rewrite str_eqb_refl in H.
Qed.
Lemma assign_let x v v0 E : lookup x E = Some (SVar v0) -> assign x v E = Some (update x (SVar v) E).
Proof. intros H. unfold assign. now rewrite H. Qed.
Lemma define_dead x v c E : lookup x E = Some (SDead c) -> define x v E = Some (update x (if c then SConst v else SVar v) E).
Proof. intros H. unfold define. now rewrite H. Qed.
Lemma var_slot x s v E : lookup x E = Some s -> slot_value s = Some v -> var x E = Some v.
Proof. intros H1 H2. unfold var. now rewrite H1. Qed.

(** Names that local variables have; the others are those of functions, namespaces and global objects. *)
Definition local_names : list str := map txt
  ["size"; "elements"; "oldPayload"; "i"; "payload"; "payloadAtlas"; "payloadSize"; "arraySize"; "zigzag"; "varint"; "sourceBuffer";
   "targetBuffer"; "oldPayloadAtlas"; "dataViewAlias"; "payloadAlias"; "payloadSizeBig"; "e"; "dataView"; "oldOffset"; "newPayload";
   "offset"; "index"; "message"; "atlas"; "messageAtlas"; "arrayBuffer"; "bytes"; "fallbackAtlas"; "newOffset";
   "missingFieldsErrorMessage"; "dataView64"; "textEncoder"; "textDecoder"]%string.
Definition local_ok (x : str) : bool :=
  match x with c :: _ => (c =? 36) || existsb (str_eqb x) local_names | [] => false end.
Definition clear (E : jenv) : Prop := forallb (fun b => local_ok (fst b)) E = true.
Lemma clear_not_local x E : clear E -> local_ok x = false -> not_local x E = true.
Proof.
  intros H Hx. unfold not_local. assert (lookup x E = None) as ->; [|reflexivity].
  apply lookup_none. intros Hin. apply in_map_iff in Hin as (b & <- & Hb). unfold clear in H. rewrite forallb_forall in H.
  rewrite (H _ Hb) in Hx. discriminate.
Qed.
Lemma clear_cons x s E : clear E -> local_ok x = true -> clear ((x, s) :: E).
Proof. intros H Hx. unfold clear. cbn [forallb fst]. now rewrite Hx. Qed.
Lemma clear_update x s E : clear E -> clear (update x s E).
Proof.
  unfold clear. intros H. rewrite forallb_forall in *. intros b Hb. apply (in_map fst) in Hb. rewrite update_names in Hb.
  apply in_map_iff in Hb as (b' & <- & Hb'). now apply H.
Qed.
Lemma clear_app B E : forallb (fun b => local_ok (fst b)) B = true -> clear E -> clear (B ++ E).
Proof. intros H1 H2. unfold clear. now rewrite forallb_app, H1. Qed.

(** ** The heap *)
Lemma nth_put r c h : (r < length h)%nat -> nth_error (put r c h) r = Some c.
Proof. revert r. induction h as [|c' h IH]; intros [|r] H; cbn [length put nth_error] in *; try lia; [reflexivity|]. apply IH. lia. Qed.
Lemma nth_put_other r r' c h : r <> r' -> nth_error (put r c h) r' = nth_error h r'.
Proof. revert r r'. induction h as [|c' h IH]; intros [|r] [|r'] H; cbn [put nth_error]; try congruence; auto. Qed.
Lemma put_length r c h : length (put r c h) = length h.
Proof. revert r. induction h as [|c' h IH]; intros [|r]; cbn [put length]; auto. Qed.
Lemma put_put r c c' h : put r c (put r c' h) = put r c h.
Proof. revert r. induction h as [|x h IH]; intros [|r]; cbn [put]; auto. now rewrite IH. Qed.
Lemma put_same r c h : nth_error h r = Some c -> put r c h = h.
Proof. revert r. induction h as [|x h IH]; intros [|r] H; cbn [put nth_error] in *; try discriminate; [now injection H as ->|now rewrite IH]. Qed.
Lemma nth_alloc c h : nth_error (alloc c h) (length h) = Some c.
Proof. unfold alloc. rewrite nth_error_app2, Nat.sub_diag by lia. reflexivity. Qed.
Lemma nth_alloc_old c h r : (r < length h)%nat -> nth_error (alloc c h) r = nth_error h r.
Proof. intros H. unfold alloc. now rewrite nth_error_app1. Qed.
Lemma alloc_length c h : length (alloc c h) = S (length h).
Proof. unfold alloc. rewrite app_length. cbn [length]. lia. Qed.
Lemma put_alloc r c c' h : (r < length h)%nat -> put r c (alloc c' h) = alloc c' (put r c h).
Proof. unfold alloc. revert r. induction h as [|x h IH]; intros [|r] H; cbn [length app put] in *; try lia; [reflexivity|]. rewrite IH by lia. reflexivity. Qed.
Lemma put_last c c' h : put (length h) c (alloc c' h) = alloc c h.
Proof. unfold alloc. induction h as [|x h IH]; cbn [length app put]; [reflexivity|]. now rewrite IH. Qed.
Lemma nth_lt {A} (l : list A) r c : nth_error l r = Some c -> (r < length l)%nat.
Proof. intros H. apply nth_error_Some. now rewrite H. Qed.
Lemma buffer_cell r h bs : buffer r h = Some bs <-> nth_error h r = Some (CellBuf bs).
Proof. unfold buffer. destruct (nth_error h r) as [[l|b]|]; split; try discriminate; now intros [= ->]. Qed.
Lemma array_cell r h l : array r h = Some l <-> nth_error h r = Some (CellArr l).
Proof. unfold array. destruct (nth_error h r) as [[l'|b]|]; split; try discriminate; now intros [= ->]. Qed.

(** ** Blocks *)
Lemma run_stmts_app g a : forall b E h, run_stmts g (a ++ b) E h = snext (run_stmts g a E h) (run_stmts g b).
Proof.
  induction a as [|s a IH]; intros b E h; [reflexivity|]. cbn [app run_stmts]. destruct (g s E h); try reflexivity. cbn [snext]. apply IH.
Qed.
Lemma run_stmts_cons g s ss E h : run_stmts g (s :: ss) E h = snext (g s E h) (run_stmts g ss). Proof. reflexivity. Qed.
Lemma run_stmts_nil g E h : run_stmts g [] E h = SoNext E h. Proof. reflexivity. Qed.
Lemma frame_app a b : block_frame (a ++ b) = block_frame a ++ block_frame b.
Proof. unfold block_frame. now rewrite flat_map_app, map_app. Qed.
Lemma frame_cons s ss : block_frame (s :: ss) = map (fun d => (fst d, SDead (snd d))) (declared_in s) ++ block_frame ss.
Proof. unfold block_frame. cbn [flat_map]. now rewrite map_app. Qed.
Lemma run_block_eq g extra ss E h F : block_frame ss = F -> all_different (map fst (extra ++ F)) = true ->
  run_block g extra ss E h = leave_block (length (extra ++ F)) (run_stmts g ss ((extra ++ F) ++ E) h).
Proof. intros <- H. unfold run_block. now rewrite H. Qed.
Lemma all_different_nodup l : all_different l = true <-> NoDup l.
Proof.
  induction l as [|x l IH]; cbn [all_different]; [split; [constructor|reflexivity]|]. rewrite andb_true_iff, IH. split.
  - intros [H1 H2]. constructor; [|exact H2]. intros Hin. apply negb_true_iff in H1. assert (existsb (str_eqb x) l = true); [|congruence].
    apply existsb_exists. exists x. split; [exact Hin|apply str_eqb_refl].
  - intros H. inversion H as [|? ? H1 H2]; subst. split; [|exact H2]. apply negb_true_iff. destruct (existsb (str_eqb x) l) eqn:Ex; [|reflexivity].
    apply existsb_exists in Ex as (y & Hy & E). apply str_eqb_eq in E. now subst.
Qed.

(** ** Equations *)
Section Eval.
Context (rounds : nat) (find : scope -> jcallee -> option (scope * jfn)) (reach : scope -> str -> bool).
Context (call : scope -> jfn -> list jv -> heap -> jout jv) (here : scope).
Notation ev := (jeval find reach call here).
Notation ex := (jexec rounds find reach call here).
Notation rs := (run_stmts (jexec rounds find reach call here)).
Notation rb := (run_block (jexec rounds find reach call here) []).

Lemma jev_var x v E h : var x E = Some v -> ev (XVar x) E h = ExVal v h.
Proof. intros H. cbn [jeval]. now rewrite H. Qed.
Lemma jev_num f n E h : ev (XNum f n) E h = ExVal (JvNum n) h. Proof. reflexivity. Qed.
Lemma jev_big g n E h : ev (XBig g n) E h = ExVal (JvBig (Z.of_N n)) h. Proof. reflexivity. Qed.
Lemma jev_bool b E h : ev (XBool b) E h = ExVal (JvBool b) h. Proof. reflexivity. Qed.
Lemma jev_null E h : ev XNull E h = ExVal JvNull h. Proof. reflexivity. Qed.
Lemma jev_undefined E h : ev XUndefined E h = ExVal JvUndef h. Proof. reflexivity. Qed.
Lemma jev_str s E h : ev (XStr s) E h = ExVal (JvText s) h. Proof. reflexivity. Qed.
Lemma jev_prop e x E h : ev (XProp e x) E h = ebind (ev e E h) (fun v h => value_or_stuck (get_prop v x h) h). Proof. reflexivity. Qed.
Definition index_value (v n : jv) (h : heap) : jout jv :=
  match v, n with
  | JvArr r, JvNum n => match array r h with Some l => value_or_stuck (nth_error l (N.to_nat n)) h | None => ExStuck end
  | _, _ => ExStuck
  end.
Lemma jev_index e i E h : ev (XIndex e i) E h = ebind (ev e E h) (fun v h => ebind (ev i E h) (fun n h => index_value v n h)).
Proof. reflexivity. Qed.
Lemma jev_call l f args E h : ev (XCall l f args) E h =
  ebind (eval_list (fun e h => ev e E h) args h) (fun vs h => call_callee find reach call here f vs E h).
Proof. reflexivity. Qed.
Lemma jev_method l e m args E h : ev (XMethod l e m args) E h =
  ebind (ev e E h) (fun v h => ebind (eval_list (fun e h => ev e E h) args h) (fun vs h => call_jmethod m v vs h)).
Proof. reflexivity. Qed.
Lemma jev_new l c args E h : not_local (class_str c) E = true -> reach here (class_str c) = true ->
  ev (XNew l c args) E h = ebind (eval_list (fun e h => ev e E h) args h) (fun vs h => call_new c vs h).
Proof. intros H1 H2. cbn [jeval]. unfold class_ok. rewrite H1, H2. reflexivity. Qed.
Lemma jev_neg e E h : ev (XNeg e) E h = ebind (ev e E h) (fun v h => match v with JvBig z => ExVal (JvBig (- z)) h | _ => ExStuck end).
Proof. reflexivity. Qed.
Lemma jev_both n a b E h : ev (XBin n BBoth a b) E h =
  ebind (ev a E h) (fun v h => match v with JvBool true => ev b E h | JvBool false => ExVal v h | _ => ExStuck end).
Proof. reflexivity. Qed.
Lemma jev_bin n op a b E h : op <> BBoth -> ev (XBin n op a b) E h =
  ebind (ev a E h) (fun va h => ebind (ev b E h) (fun vb h => value_or_stuck (apply_op op va vb) h)).
Proof. intros H. destruct op; try reflexivity. contradiction. Qed.
Lemma jev_cond c a b E h : ev (XCond c a b) E h =
  ebind (ev c E h) (fun v h => match v with JvBool true => ev a E h | JvBool false => ev b E h | _ => ExStuck end).
Proof. reflexivity. Qed.
Lemma jev_paren l e E h : ev (XParen l e) E h = ev e E h. Proof. reflexivity. Qed.
Lemma jev_as e t E h : ev (XAs e t) E h = ev e E h. Proof. reflexivity. Qed.
Lemma jev_empty l E h : ev (XArr l []) E h = ExVal (JvArr (length h)) (alloc (CellArr []) h). Proof. reflexivity. Qed.
Lemma jev_tuple l e es E h : ev (XArr l (e :: es)) E h =
  ebind (eval_list (fun e h => ev e E h) (e :: es) h) (fun vs h => ExVal (JvTuple vs) h).
Proof. reflexivity. Qed.
Definition eval_property (E : jenv) (p : str * option jexpr) (h : heap) : jout (str * jv) :=
  ebind (match snd p with Some e => ev e E h | None => value_or_stuck (var (fst p) E) h end) (fun v h => ExVal (fst p, v) h).
Lemma jev_obj l ps E h : all_different (txt "__proto__" :: map fst ps) = true ->
  ev (XObj l ps) E h = ebind (eval_list (eval_property E) ps h) (fun ps h => ExVal (JvObj ps) h).
Proof.
  intros H. change (ev (XObj l ps) E h) with (if all_different (txt "__proto__" :: map fst ps) then ebind (eval_list (eval_property E) ps h) (fun ps h => ExVal (JvObj ps) h) else ExStuck).
  now rewrite H.
Qed.
Lemma jev_in x e E h : ev (XIn x e) E h = ebind (ev e E h) (fun v h => match v with JvObj ps => ExVal (JvBool (obj_has ps x)) h | _ => ExStuck end).
Proof. reflexivity. Qed.
Lemma jev_instance e c E h : not_local (class_str c) E = true -> reach here (class_str c) = true ->
  ev (XInstance e c) E h = ebind (ev e E h) (fun v h => ExVal (JvBool (instance_of v c)) h).
Proof. intros H1 H2. cbn [jeval]. unfold class_ok. rewrite H1, H2. reflexivity. Qed.
Section Ors.
  Context (E : jenv).
  Fixpoint eval_ors (l : list jexpr) (h : heap) : jout jv :=
    match l with
    | [] => ExVal (JvBool false) h
    | e :: l' => ebind (ev e E h) (fun v h => match v with JvBool true => ExVal v h | JvBool false => eval_ors l' h | _ => ExStuck end)
    end.
End Ors.
Lemma jev_ors l E h : ev (XOrs l) E h = eval_ors E l h.
Proof. reflexivity. Qed.
Lemma jcondition e E h : condition find reach call here e E h = ebind (ev e E h) as_bool. Proof. reflexivity. Qed.

Lemma jev_list_cons {X A} (g : X -> heap -> jout A) x l h :
  eval_list g (x :: l) h = ebind (g x h) (fun a h => ebind (eval_list g l h) (fun l h => ExVal (a :: l) h)).
Proof. reflexivity. Qed.
Lemma jev_list_nil {X A} (g : X -> heap -> jout A) h : eval_list g [] h = ExVal [] h. Proof. reflexivity. Qed.

Lemma jx_let c x t e E h : ex (JLet c x t (Some e)) E h = sbind (ev e E h) E (fun v h => next_env (define x v E) h). Proof. reflexivity. Qed.
Lemma jx_decl c x t E h : ex (JLet c x t None) E h = next_env (define x JvUndef E) h. Proof. reflexivity. Qed.
Lemma jx_lets xs E h : ex (JLets xs) E h = next_env (each_with define xs (map (fun _ => JvUndef) xs) E) h. Proof. reflexivity. Qed.
Lemma jx_let_tuple xs e E h : ex (JLetTuple xs e) E h =
  sbind (ev e E h) E (fun v h => match v with JvTuple vs => next_env (each_with define xs vs E) h | _ => SoStuck end).
Proof. reflexivity. Qed.
Lemma jx_assign x e E h : ex (JAssign x e) E h = sbind (ev e E h) E (fun v h => next_env (assign x v E) h). Proof. reflexivity. Qed.
Lemma jx_op_assign x op e v E h : var x E = Some v -> ex (JOpAssign x op e) E h =
  sbind (ev e E h) E (fun v' h => match apply_op op v v' with Some v => next_env (assign x v E) h | None => SoStuck end).
Proof. intros H. cbn [jexec]. now rewrite H. Qed.
Lemma jx_assign_tuple xs e E h : ex (JAssignTuple xs e) E h =
  sbind (ev e E h) E (fun v h => match v with JvTuple vs => next_env (each_with assign xs vs E) h | _ => SoStuck end).
Proof. reflexivity. Qed.
Lemma jx_expr e E h : ex (JExpr e) E h = sbind (ev e E h) E (fun _ h => SoNext E h). Proof. reflexivity. Qed.
Lemma jx_block b E h : ex (JBlock b) E h = rb b E h. Proof. reflexivity. Qed.
Lemma jx_if c b branches last E h : ex (JIf ((c, b) :: branches) last) E h =
  sbind (condition find reach call here c E h) E (fun yes h => if yes then rb b E h else ex (JIf branches last) E h).
Proof. reflexivity. Qed.
Lemma jx_else b E h : ex (JIf [] (Some b)) E h = rb b E h. Proof. reflexivity. Qed.
Lemma jx_no_else E h : ex (JIf [] None) E h = SoNext E h. Proof. reflexivity. Qed.
Definition increment (x : str) (E : jenv) (h : heap) : sout :=
  match var x E with
  | Some v => match apply_op BAdd v (JvNum 1) with Some v => next_env (assign x v E) h | None => SoStuck end
  | None => SoStuck
  end.
Lemma jx_for x limit b E h : ex (JFor x limit b) E h =
  leave_block 1 (after_loop
    (run_while (condition find reach call here (XBin None BLt (XVar x) limit)) (fun E h => snext (rb b E h) (increment x)) rounds ((x, SVar (JvNum 0)) :: E) h)).
Proof. reflexivity. Qed.
Lemma jx_while c b E h : ex (JWhile c b) E h = after_loop (run_while (condition find reach call here c) (rb b) rounds E h).
Proof. reflexivity. Qed.
Lemma jx_break E h : ex JBreak E h = SoBreak E h. Proof. reflexivity. Qed.
Lemma jx_return e E h : ex (JReturn e) E h = sbind (ev e E h) E (fun v h => SoReturn v h). Proof. reflexivity. Qed.
Lemma jx_throw e E h : ex (JThrow e) E h = sbind (ev e E h) E (fun v h => SoThrow v E h). Proof. reflexivity. Qed.
Lemma jx_try b x handler E h : ex (JTry b x handler) E h =
  match rb b E h with
  | SoThrow v E h => leave_block 1 (rb handler ((x, SVar v) :: E) h)
  | r => r
  end.
Proof. reflexivity. Qed.
Lemma jx_switch e cases default E h : ex (JSwitch e cases default) E h =
  sbind (ev e E h) E (fun v h => after_loop (run_cases ex ev v default false cases E h)).
Proof. reflexivity. Qed.
Lemma cases_default v default E h : run_cases ex ev v default false [] E h = run_body ex default E h. Proof. reflexivity. Qed.
Lemma cases_cons v default c b cases E h : run_cases ex ev v default false ((c, b) :: cases) E h =
  sbind (ev c E h) E (fun w h =>
    match strict_eq v w with
    | Some true => snext (run_body ex b E h) (run_cases ex ev v default true cases)
    | Some false => run_cases ex ev v default false cases E h
    | None => SoStuck
    end).
Proof. reflexivity. Qed.
Lemma body_braces b E h : run_body ex (true, b) E h = rb b E h. Proof. reflexivity. Qed.
Lemma body_plain b E h : block_frame b = [] -> run_body ex (false, b) E h = rs b E h.
Proof. intros H. unfold run_body. cbn [fst snd]. now rewrite H. Qed.
Lemma jx_blank E h : ex JBlank E h = SoNext E h. Proof. reflexivity. Qed.

(** Calls. *)
Lemma callee_fn f vs E h sc fn : not_local f E = true -> find here (CFn f) = Some (sc, fn) ->
  call_callee find reach call here (CFn f) vs E h = call sc fn vs h.
Proof. intros H1 H2. unfold call_callee. now rewrite H1, H2. Qed.
Lemma callee_path x p f vs E h sc fn : not_local x E = true -> find here (CPath (x :: p) f) = Some (sc, fn) ->
  call_callee find reach call here (CPath (x :: p) f) vs E h = call sc fn vs h.
Proof. intros H1 H2. unfold call_callee. now rewrite H1, H2. Qed.
Lemma callee_global g vs E h : not_local (global_name g) E = true -> reach here (global_name g) = true ->
  call_callee find reach call here (CGlobal g) vs E h = call_global g vs h.
Proof. intros H1 H2. unfold call_callee. now rewrite H1, H2. Qed.
End Eval.

Lemma while_step c g n E h : run_while c g (S n) E h =
  sbind (c E h) E (fun b h => if b then snext (g E h) (run_while c g n) else SoNext E h).
Proof. reflexivity. Qed.

Section Calls.
Context (rounds : nat) (find : scope -> jcallee -> option (scope * jfn)) (reach : scope -> str -> bool).
Lemma run_jfn_eq d sc x n l params ret body args P h : jbind_params params args = Some P ->
  (forall c, In c (map fst top_constants) -> reach sc c = true) ->
  run_jfn rounds find reach (S d) sc (JFn x n l params ret body) args h =
  jfn_result (run_block (jexec rounds find reach (run_jfn rounds find reach d) sc) P body top_constants h).
Proof.
  intros H1 H2. cbn [run_jfn]. rewrite H1. replace (filter _ top_constants) with top_constants; [reflexivity|].
  unfold top_constants in *. cbn [filter map In fst] in *. now rewrite !H2 by auto 6.
Qed.
End Calls.

(** The declarations of constants of the prelude make [top_constants], with cell 0 as buffer of [dataView64]. *)
Lemma prelude_constants rounds find reach call :
  (forall c, In c [txt "DataView"; txt "ArrayBuffer"; txt "TextEncoder"; txt "TextDecoder"] -> reach [] c = true) ->
  run_stmts (jexec rounds find reach call []) prelude_consts (block_frame prelude_consts) [] =
  SoNext top_constants [CellBuf (repeat 0 8)].
Proof.
  intros H. unfold prelude_consts, jconst. rewrite run_stmts_cons, jx_let, jev_str. cbn [sbind].
  change (next_env _ _) with (SoNext ((txt "missingFieldsErrorMessage", SConst (JvText missing_text)) :: block_frame (tl prelude_consts)) []).
  cbn [snext]. rewrite run_stmts_cons, jx_let, jev_new by (try reflexivity; apply H; cbn; auto). rewrite jev_list_cons, jev_new by (try reflexivity; apply H; cbn; auto).
  unfold num. rewrite jev_list_cons, jev_num. cbn [ebind]. rewrite jev_list_nil. cbn [ebind call_new alloc app length]. rewrite jev_list_nil. cbn [ebind call_new new_part].
  change (buffer 0 _) with (Some (repeat 0 8)). cbn iota. cbn [sbind].
  change (next_env _ _) with (SoNext (firstn 2 top_constants ++ block_frame (skipn 2 prelude_consts)) [CellBuf (repeat 0 8)]).
  cbn [snext]. rewrite run_stmts_cons, jx_let, jev_new by (try reflexivity; apply H; cbn; auto). rewrite jev_list_nil. cbn [ebind call_new sbind].
  change (next_env _ _) with (SoNext (firstn 3 top_constants ++ block_frame (skipn 3 prelude_consts)) [CellBuf (repeat 0 8)]).
  cbn [snext]. rewrite run_stmts_cons, jx_let, jev_new by (try reflexivity; apply H; cbn; auto). rewrite jev_list_nil. cbn [ebind call_new sbind].
  reflexivity.
Qed.

#[global] Opaque jeval jexec run_jfn.

(** ** Stepping *)
Lemma var_here x s E : var x ((x, s) :: E) = slot_value s.
Proof. unfold var. now rewrite lookup_here. Qed.
Lemma var_skip x y s E : str_eqb x y = false -> var x ((y, s) :: E) = var x E.
Proof. intros H. unfold var. now rewrite lookup_skip. Qed.
Lemma var_other x y s E : str_eqb x y = false -> var x (update y s E) = var x E.
Proof. intros H. unfold var. now rewrite lookup_other. Qed.
Lemma var_updated x s t E : lookup x E = Some t -> var x (update x s E) = slot_value s.
Proof. intros H. unfold var. now rewrite (lookup_updated _ _ t). Qed.
Lemma var_lookup x s E : lookup x E = Some s -> var x E = slot_value s.
Proof. intros H. unfold var. now rewrite H. Qed.

Ltac jlk :=
  repeat first [rewrite lookup_here | rewrite lookup_skip by reflexivity | rewrite lookup_other by reflexivity];
  first [reflexivity | eassumption | erewrite lookup_updated by jlk; reflexivity].
Ltac jvar :=
  repeat first [rewrite var_here | rewrite var_skip by reflexivity | rewrite var_other by reflexivity];
  first [reflexivity | eassumption | erewrite var_updated by jlk; reflexivity | erewrite var_lookup by jlk; reflexivity].
Ltac jclear :=
  repeat first [apply clear_cons; [|reflexivity] | apply clear_update]; first [assumption | reflexivity].
Ltac jlocal := first [reflexivity | apply clear_not_local; [jclear | reflexivity]].
(** Names that generated code relies on, in whatever scope it is. *)
Definition relied_globals : list str :=
  map txt ["ArrayBuffer"; "DataView"; "Uint8Array"; "Error"; "RangeError"; "TextEncoder"; "TextDecoder"; "BigInt"; "Number"; "Array"; "Object"]%string ++
  map fst top_constants.
Record good_scope (find : scope -> jcallee -> option (scope * jfn)) (reach : scope -> str -> bool) (sc : scope) : Prop := mkGoodScope {
  gs_reach : forall c, existsb (str_eqb c) relied_globals = true -> reach sc c = true;
  gs_prelude : forall f fn, fns_named f prelude_fns = [fn] -> find sc (CFn f) = Some ([], fn) }.
Ltac jreach := match goal with H : good_scope ?f ?r ?sc |- ?r ?sc _ = true => apply (gs_reach f r sc H); reflexivity end.
Ltac jprelude := match goal with H : good_scope ?f ?r ?sc |- ?f ?sc _ = _ => apply (gs_prelude f r sc H); reflexivity end.

Ltac jexpr_step e :=
  lazymatch e with
  | XVar _ => erewrite jev_var by jvar
  | XNum _ _ => rewrite jev_num | XBig _ _ => rewrite jev_big | XBool _ => rewrite jev_bool | XNull => rewrite jev_null
  | XUndefined => rewrite jev_undefined | XStr _ => rewrite jev_str | XProp _ _ => rewrite jev_prop | XIndex _ _ => rewrite jev_index
  | XCall _ _ _ => rewrite jev_call | XMethod _ _ _ _ => rewrite jev_method
  | XNew _ _ _ => rewrite jev_new; [|jlocal|jreach]
  | XNeg _ => rewrite jev_neg | XBin _ BBoth _ _ => rewrite jev_both | XBin _ _ _ _ => rewrite jev_bin by discriminate
  | XCond _ _ _ => rewrite jev_cond | XParen _ _ => rewrite jev_paren | XAs _ _ => rewrite jev_as | XArr _ [] => rewrite jev_empty
  | XArr _ _ => rewrite jev_tuple | XIn _ _ => rewrite jev_in
  | XInstance _ _ => rewrite jev_instance; [|jlocal|jreach]
  | XOrs _ => rewrite jev_ors
  end.
Ltac jstmt_step s :=
  lazymatch s with
  | JLet _ _ _ (Some _) => rewrite jx_let | JLet _ _ _ None => rewrite jx_decl | JLetTuple _ _ => rewrite jx_let_tuple
  | JAssign _ _ => rewrite jx_assign | JOpAssign _ _ _ => erewrite jx_op_assign by jvar | JAssignTuple _ _ => rewrite jx_assign_tuple
  | JExpr _ => rewrite jx_expr | JBlock _ => rewrite jx_block | JIf ((_, _) :: _) _ => rewrite jx_if | JIf [] (Some _) => rewrite jx_else
  | JIf [] None => rewrite jx_no_else | JBreak => rewrite jx_break | JReturn _ => rewrite jx_return | JThrow _ => rewrite jx_throw
  | JSwitch _ _ _ => rewrite jx_switch | JBlank => rewrite jx_blank
  end.
Ltac jred := cbn [ebind sbind snext value_or_stuck as_bool next_env each_with slot_value leave_block after_loop app skipn length fst snd jfn_result].
Ltac jstep :=
  match goal with
  | |- context [jeval _ _ _ _ ?e ?E ?h] => jexpr_step e
  | |- context [condition _ _ _ _ ?e ?E ?h] => rewrite jcondition
  | |- context [jexec _ _ _ _ _ ?s ?E ?h] => jstmt_step s
  | |- context [define ?x ?v ?E] => erewrite (define_dead x v) by jlk
  | |- context [assign ?x ?v ?E] => erewrite (assign_let x v) by jlk
  | |- context [update ?x ?s ((?x, _) :: _)] => rewrite update_here
  | |- context [update ?x ?s ((_, _) :: _)] => rewrite update_skip by reflexivity
  | |- context [eval_list ?g (_ :: _) ?h] => rewrite (jev_list_cons g)
  | |- context [eval_list ?g [] ?h] => rewrite (jev_list_nil g)
  | |- context [run_stmts ?g (_ :: _) ?E ?h] => rewrite (run_stmts_cons g)
  | |- context [run_stmts ?g [] ?E ?h] => rewrite (run_stmts_nil g)
  end.
Ltac js := repeat (jstep; jred).
(** Enter a block whose variables are known. *)
Ltac jblock :=
  match goal with |- context [run_block ?g ?ex ?ss ?E ?h] =>
    let F := eval cbv [block_frame flat_map declared_in map app fst snd] in (block_frame ss) in
    rewrite (run_block_eq g ex ss E h F) by reflexivity end; cbn [app length].
(** Enter a function. *)
Ltac jenter := erewrite run_jfn_eq; [|reflexivity|intros ? Hc; match goal with H : good_scope ?f ?r ?sc |- _ => apply (gs_reach f r sc H) end;
  cbn in Hc; decompose [or] Hc; subst; try contradiction; reflexivity]; jblock.
