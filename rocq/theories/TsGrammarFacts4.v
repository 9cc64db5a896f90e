(** Statements, functions, type definitions and modules. *)
From Verif Require Import BaseFacts IdentFacts.
From Verif Require Export TsGrammarFacts3.
Local Open Scope string_scope.
Local Open Scope list_scope.
Local Open Scope N_scope.

Definition opt_ty (t : option ttype) : Prop := match t with Some t => wty 1 t | None => True end.
Fixpoint ws (s : jstmt) : Prop :=
  match s with
  | JLet const x t e => is_ident x /\ opt_ty t /\ match e with Some e => we 1 e | None => const = false end
  | JLets xs => xs <> [] /\ allP is_ident xs
  | JLetTuple xs e | JAssignTuple xs e => allP is_ident xs /\ we 1 e
  | JAssign x e => is_ident x /\ we 1 e
  | JOpAssign x op e => is_ident x /\ op_assign op <> None /\ we 1 e
  | JExpr e => we 18 e /\ starts_brace e = false
  | JBlock b => allP ws b
  | JIf branches last =>
      branches <> [] /\ allP (fun cb => we 1 (fst cb) /\ allP ws (snd cb)) branches /\ match last with Some b => allP ws b | None => True end
  | JFor x limit b => is_ident x /\ we 10 limit /\ allP ws b
  | JWhile c b => we 1 c /\ allP ws b
  | JReturn e | JThrow e => we 1 e
  | JTry b x h => allP ws b /\ is_ident x /\ allP ws h
  | JSwitch e cases default => we 1 e /\ allP (fun c => we 1 (fst c) /\ allP ws (snd (snd c))) cases /\ allP ws (snd default)
  | JBreak | JBlank => True
  end.
Section StmtInd.
Context (P : jstmt -> Prop).
Definition nested (s : jstmt) : bool :=
  match s with JBlock _ | JIf _ _ | JFor _ _ _ | JWhile _ _ | JTry _ _ _ | JSwitch _ _ _ => true | _ => false end.
Context (Hleaf : forall s, nested s = false -> P s) (Hblock : forall b, Forall P b -> P (JBlock b))
  (Hif : forall l o, Forall (fun cb => Forall P (snd cb)) l -> match o with Some b => Forall P b | None => True end -> P (JIf l o))
  (Hfor : forall x e b, Forall P b -> P (JFor x e b)) (Hwhile : forall e b, Forall P b -> P (JWhile e b))
  (Htry : forall b x h, Forall P b -> Forall P h -> P (JTry b x h))
  (Hswitch : forall e l d, Forall (fun c => Forall P (snd (snd c))) l -> Forall P (snd d) -> P (JSwitch e l d)).
Let Q (cb : jexpr * list jstmt) : Prop := Forall P (snd cb).
Let R (c : jexpr * (bool * list jstmt)) : Prop := Forall P (snd (snd c)).
Fixpoint jstmt_ind' (s : jstmt) : P s :=
  let all := fix go b : Forall P b := match b with [] => Forall_nil _ | s :: b' => Forall_cons s (jstmt_ind' s) (go b') end in
  match s with
  | JBlock b => Hblock b (all b)
  | JIf l o => Hif l o ((fix go l : Forall Q l := match l with [] => Forall_nil Q | (c, b) :: l' => @Forall_cons _ Q (c, b) l' (all b) (go l') end) l)
                 (match o with Some b => all b | None => I end)
  | JFor x e b => Hfor x e b (all b)
  | JWhile e b => Hwhile e b (all b)
  | JTry b x h => Htry b x h (all b) (all h)
  | JSwitch e l (f, d) => Hswitch e l (f, d) ((fix go l : Forall R l := match l with [] => Forall_nil R | (c, (f, b)) :: l' => @Forall_cons _ R (c, (f, b)) l' (all b) (go l') end) l) (all d)
  | JLet a b c d => Hleaf (JLet a b c d) eq_refl | JLets a => Hleaf (JLets a) eq_refl | JLetTuple a b => Hleaf (JLetTuple a b) eq_refl
  | JAssign a b => Hleaf (JAssign a b) eq_refl | JOpAssign a b c => Hleaf (JOpAssign a b c) eq_refl | JAssignTuple a b => Hleaf (JAssignTuple a b) eq_refl
  | JExpr a => Hleaf (JExpr a) eq_refl | JBreak => Hleaf JBreak eq_refl | JReturn a => Hleaf (JReturn a) eq_refl | JThrow a => Hleaf (JThrow a) eq_refl
  | JBlank => Hleaf JBlank eq_refl
  end.
End StmtInd.

Definition RS (s : jstmt) : Prop := forall ind, rdl (jstmt_str ind s) (fun ts => gstmt ts s).
Lemma body_reads ind b : Forall RS b -> rdl (body_str ind b) (fun ts => many gstmt ts b).
Proof.
  intros H. unfold body_str. apply rd_many. eapply Forall_impl; [|exact H]. cbv beta. intros s Hs.
  assert (s = JBlank \/ rdl (indent2 ind ++ jstmt_str ind s ++ nl) (fun ts => gstmt ts s)) as [->|K].
  - right. destruct (Hs ind) as (ts & H1 & H2). exists ts. split; [exact H1|]. intros r. lxt.
  - exists []. split; [constructor|]. intros r. lxt.
  - destruct s; try exact K. exists []. split; [constructor|]. intros r. lxt.
Qed.
Lemma braces_read ind b : Forall RS b -> rdl (in_braces ind (body_str (S ind) b)) (fun ts => gblock ts b).
Proof.
  intros H. destruct (body_reads (S ind) b H) as (ts & H1 & H2). exists ([y "{"] ++ ts ++ [y "}"]). split; [now constructor|]. intros s. unfold in_braces. lxt.
Qed.
Lemma idents_commas xs : allP is_ident xs -> rd false (join_with (txt ", ") xs) (fun ts => commas gident ts xs).
Proof.
  intros H. rewrite <- (map_id xs) at 1. apply rd_separated; [intros s; lxt|intros s; fol|]. eapply allP_Forall; [exact H|]. intros x _ Hx. exists [JWord x].
  split; [now split|]. intros s Hs. lxt.
Qed.
Lemma idents_chain d (sep : str) op xs : (forall s, lx (sep ++ s) = op :: lx s) -> (forall s, follow d (sep ++ s)) -> xs <> [] -> allP is_ident xs ->
  rd d (join_with sep xs) (fun ts => chain gident op ts xs).
Proof.
  intros H1 H2 Hne H. rewrite <- (map_id xs) at 1. apply rd_chain; [exact Hne|exact H1|exact H2|]. eapply allP_Forall; [exact H|]. intros x _ Hx. exists [JWord x].
  split; [now split|]. intros s Hs. destruct d; lxt.
Qed.
Lemma annotation_reads t : opt_ty t -> rd false (match t with Some t => txt ": " ++ ttype_str t | None => [] end) (fun ts => gannotation ts t).
Proof.
  destruct t as [t|]; cbn [opt_ty gannotation].
  - intros H. destruct (type_reads t 1 (or_introl eq_refl) H) as [_ (ts & H1 & H2)]. exists ([y ":"] ++ ts). split; [now exists ts|]. intros s Hs. lxt.
  - intros _. exists []. split; [reflexivity|]. reflexivity.
Qed.
Lemma annotation_follow t s : follow false s -> follow true ((match t with Some t => txt ": " ++ ttype_str t | None => [] end) ++ s).
Proof. destruct t; [fol|]. apply follow_weaken. Qed.
Lemma assign_text op o s : op_assign op = Some o -> lx (txt " " ++ jop_str op ++ txt "= " ++ s) = o :: lx s.
Proof. destruct op; cbn [op_assign]; intros E; try discriminate E; injection E as <-; reflexivity. Qed.

Lemma rdl_chain {A : Type} (G : list jtok -> A -> Prop) (f : A -> str) (sep : str) op l : l <> [] -> (forall s, lx (sep ++ s) = op :: lx s) ->
  Forall (fun a => rdl (f a) (fun ts => G ts a)) l -> rdl (join_with sep (map f l)) (fun ts => chain G op ts l).
Proof.
  intros Hl Hs H. induction H as [|a l (ts & H1 & H2) _ IH]; [now destruct Hl|]. destruct l as [|b l].
  - exists ts. split; [now constructor|exact H2].
  - destruct (IH ltac:(discriminate)) as (tss & H3 & H4). exists (ts ++ [op] ++ tss). split; [now constructor|]. intros s. cbn [map join_with].
    cbn [map join_with] in H4. set (more := match map f l with [] => f b | _ => _ end) in *. rewrite <- !app_assoc. now rewrite H2, Hs, H4.
Qed.
Lemma if_text ind branches last : jstmt_str ind (JIf branches last) =
  join_with (txt " else ") (map (fun cb : jexpr * list jstmt => txt "if (" ++ jexpr_str ind (fst cb) ++ txt ") " ++ in_braces ind (body_str (S ind) (snd cb))) branches ++
    match last with Some b => [in_braces ind (body_str (S ind) b)] | None => [] end).
Proof. reflexivity. Qed.
Lemma join_snoc (sep : str) (l : list str) (x : str) : l <> [] -> join_with sep (l ++ [x]) = join_with sep l ++ sep ++ x.
Proof.
  induction l as [|a l IH]; [congruence|]. intros _. destruct l as [|b l]; [reflexivity|]. cbn [app]. rewrite (join_cons sep a (b :: l)) by discriminate.
  rewrite (join_cons sep a (b :: l ++ [x])) by discriminate. rewrite <- !app_assoc. apply f_equal. apply f_equal. apply IH. discriminate.
Qed.
Lemma switch_text ind e cases (default : bool * list jstmt) : jstmt_str ind (JSwitch e cases default) =
  txt "switch (" ++ jexpr_str ind e ++ txt ") " ++
  in_braces ind (concat (map (fun c : jexpr * (bool * list jstmt) => indent2 (S ind) ++ (txt "case " ++ jexpr_str ind (fst c)) ++ txt ":" ++
      (if fst (snd c) then txt " " ++ in_braces (S ind) (body_str (S (S ind)) (snd (snd c))) ++ nl else nl ++ body_str (S (S ind)) (snd (snd c)))) cases) ++
    indent2 (S ind) ++ txt "default" ++ txt ":" ++
      (if fst default then txt " " ++ in_braces (S ind) (body_str (S (S ind)) (snd default)) ++ nl else nl ++ body_str (S (S ind)) (snd default))).
Proof. reflexivity. Qed.
Lemma default_text s : lx (txt "default" ++ txt ":" ++ s) = [w "default"; y ":"] ++ lx s.
Proof. exact (lex_lit (txt "default:") s eq_refl). Qed.
Lemma clause_reads ind (b : bool * list jstmt) : Forall RS (snd b) ->
  rdl (if fst b then txt " " ++ in_braces (S ind) (body_str (S (S ind)) (snd b)) ++ nl else nl ++ body_str (S (S ind)) (snd b)) (fun ts => gclause ts b).
Proof.
  destruct b as [[] b]; cbn [fst snd]; intros H.
  - destruct (braces_read (S ind) b H) as (ts & H1 & H2). exists ts. split; [now constructor|]. intros s. lxt.
  - destruct (body_reads (S (S ind)) b H) as (ts & H1 & H2). exists ts. split; [now constructor|]. intros s. lxt.
Qed.

Ltac use_expr H := let K := fresh "K" in let ts := fresh "ts" in
  match type of H with we ?l ?e => match goal with ind : nat |- _ => destruct (re_use l e ind (expr_reads e l H) eq_refl) as [K (ts & ? & ?)] end end.
Lemma stmt_reads s : ws s -> RS s.
Proof.
  induction s as [s Hs|b IH|l o IHl IHo|x e b IH|e b IH|b x h IHb IHh|e l d IHl IHd] using jstmt_ind'; intros Hw ind.
  - destruct s; try discriminate Hs; cbn [ws] in Hw; cbn [jstmt_str].
    + destruct Hw as (H1 & H2 & H3). destruct (annotation_reads t H2) as (ts & A1 & A2). pose proof (fun s => annotation_follow t s) as A3.
      set (a := match t with Some t => _ | None => _ end) in *. destruct e as [e|].
      * use_expr H3. exists ((if const then [w "const"; JWord x] else [w "let"; JWord x]) ++ ts ++ [y "="] ++ ts0 ++ [y ";"]). split; [destruct const; constructor; auto|].
        intros s. destruct const; rewrite <- !app_assoc; (rewrite lex_lit by reflexivity); (rewrite lex_ident; [|exact H1|apply A3; fol]); lxt.
      * subst const. exists ([w "let"; JWord x] ++ ts ++ [y ";"]). split; [constructor; auto|].
        intros s. rewrite <- !app_assoc; (rewrite lex_lit by reflexivity); (rewrite lex_ident; [|exact H1|apply A3; fol]); lxt.
    + destruct Hw as (H1 & H2). destruct (idents_chain false (txt ", ") (y ",") xs ltac:(intros; lxt) ltac:(intros; fol) H1 H2) as (ts & A1 & A2).
      exists ([w "let"] ++ ts ++ [y ";"]). split; [now constructor|]. intros s. set (t := join_with _ _) in *. lxt.
    + destruct Hw as (H1 & H2). destruct (idents_commas xs H1) as (ts & A1 & A2). use_expr H2.
      exists ([w "const"; y "["] ++ ts ++ [y "]"; y "="] ++ ts0 ++ [y ";"]). split; [now constructor|]. intros s. set (t := join_with _ _) in *. lxt.
    + destruct Hw as (H1 & H2). use_expr H2. exists ([JWord x; y "="] ++ ts ++ [y ";"]). split; [now constructor|]. intros s. lxt.
    + destruct Hw as (H1 & H2 & H3). use_expr H3. destruct (op_assign op) as [o|] eqn:E; [|congruence]. exists ([JWord x; o] ++ ts ++ [y ";"]). split; [now constructor|].
      intros s. rewrite <- !app_assoc, lex_ident, (assign_text op o), H0 by (auto; fol). lxt.
    + destruct Hw as (H1 & H2). destruct (idents_commas xs H1) as (ts & A1 & A2). use_expr H2.
      exists ([y "["] ++ ts ++ [y "]"; y "="] ++ ts0 ++ [y ";"]). split; [now constructor|]. intros s. set (t := join_with _ _) in *. lxt.
    + destruct Hw as (H1 & H2). destruct (re_use18 e ind (expr_reads e 18 H1)) as [_ (ts & A1 & A2)]. exists (ts ++ [y ";"]). split; [now constructor|]. intros s. lxt.
    + exists [w "break"; y ";"]. split; [constructor|]. intros s. lxt.
    + use_expr Hw. exists ([w "return"] ++ ts ++ [y ";"]). split; [now constructor|]. intros s. lxt.
    + use_expr Hw. exists ([w "throw"] ++ ts ++ [y ";"]). split; [now constructor|]. intros s. lxt.
    + exists []. split; [constructor|]. reflexivity.
  - cbn [ws] in Hw. assert (Forall RS b) as Hb by (rewrite allP_in in Hw; rewrite Forall_forall in *; auto).
    change (jstmt_str ind (JBlock b)) with (in_braces ind (body_str (S ind) b)). destruct (braces_read ind b Hb) as (ts & H1 & H2). exists ts. split; [now constructor|exact H2].
  - cbn [ws] in Hw. destruct Hw as (H1 & H2 & H3). rewrite if_text.
    set (f := fun cb : jexpr * list jstmt => txt "if (" ++ jexpr_str ind (fst cb) ++ txt ") " ++ in_braces ind (body_str (S ind) (snd cb))).
    assert (rdl (join_with (txt " else ") (map f l)) (fun ts => chain gbranch (w "else") ts l)) as (ts & A1 & A2).
    { apply rdl_chain; [exact H1|intros s; lxt|]. rewrite allP_in in H2. rewrite Forall_forall in *. intros [c b] Hin. unfold f. cbn [fst snd].
      destruct (H2 _ Hin) as [C1 C2]. cbn [fst snd] in *. use_expr C1.
      assert (Forall RS b) as Hb by (specialize (IHl _ Hin); cbn [snd] in IHl; rewrite allP_in in C2; rewrite Forall_forall in *; auto).
      destruct (braces_read ind b Hb) as (tb & B1 & B2). exists ([w "if"; y "("] ++ ts ++ [y ")"] ++ tb). split; [now constructor|]. intros s. lxt. }
    destruct o as [b|].
    + assert (Forall RS b) as Hb by (rewrite allP_in in H3; rewrite Forall_forall in *; auto). destruct (braces_read ind b Hb) as (tb & B1 & B2).
      rewrite join_snoc by (now destruct l). exists (ts ++ [w "else"] ++ tb). split; [now constructor|]. intros s. set (t := join_with _ _) in *. lxt.
    + rewrite app_nil_r. exists ts. split; [now constructor|exact A2].
  - cbn [ws] in Hw. destruct Hw as (H1 & H2 & H3). assert (Forall RS b) as Hb by (rewrite allP_in in H3; rewrite Forall_forall in *; auto).
    destruct (braces_read ind b Hb) as (tb & B1 & B2). use_expr H2.
    change (jstmt_str ind (JFor x e b)) with (txt "for (let " ++ x ++ txt " = 0; " ++ x ++ txt " < " ++ jexpr_str ind e ++ txt "; " ++ x ++ txt " += 1) " ++ in_braces ind (body_str (S ind) b)).
    exists ([w "for"; y "("; w "let"; JWord x; y "="; w "0"; y ";"; JWord x; y "<"] ++ ts ++ [y ";"; JWord x; y "+="; w "1"; y ")"] ++ tb). split; [now constructor|].
    intros s. lxt.
  - cbn [ws] in Hw. destruct Hw as (H1 & H2). assert (Forall RS b) as Hb by (rewrite allP_in in H2; rewrite Forall_forall in *; auto).
    destruct (braces_read ind b Hb) as (tb & B1 & B2). use_expr H1.
    change (jstmt_str ind (JWhile e b)) with (txt "while (" ++ jexpr_str ind e ++ txt ") " ++ in_braces ind (body_str (S ind) b)).
    exists ([w "while"; y "("] ++ ts ++ [y ")"] ++ tb). split; [now constructor|]. intros s. lxt.
  - cbn [ws] in Hw. destruct Hw as (H1 & H2 & H3). assert (Forall RS b) as Hb by (rewrite allP_in in H1; rewrite Forall_forall in *; auto).
    assert (Forall RS h) as Hh by (rewrite allP_in in H3; rewrite Forall_forall in *; auto).
    destruct (braces_read ind b Hb) as (tb & B1 & B2), (braces_read ind h Hh) as (th & B3 & B4).
    change (jstmt_str ind (JTry b x h)) with (txt "try " ++ in_braces ind (body_str (S ind) b) ++ txt " catch (" ++ x ++ txt ") " ++ in_braces ind (body_str (S ind) h)).
    exists ([w "try"] ++ tb ++ [w "catch"; y "("; JWord x; y ")"] ++ th). split; [now constructor|]. intros s. lxt.
  - cbn [ws] in Hw. destruct Hw as (H1 & H2 & H3). rewrite switch_text. use_expr H1.
    assert (Forall RS (snd d)) as Hd by (rewrite allP_in in H3; rewrite Forall_forall in *; auto). destruct (clause_reads ind d Hd) as (td & D1 & D2).
    set (dt := if fst d then _ else _) in *.
    match goal with |- context [concat (map ?g l)] => set (f := g) end.
    assert (rdl (concat (map f l)) (fun ts => many gcase ts l)) as (tc & C1 & C2).
    { apply rd_many. rewrite allP_in in H2. rewrite Forall_forall in *. intros [c cl] Hin. destruct (H2 _ Hin) as [K1 K2]. specialize (IHl _ Hin). cbn [fst snd] in *.
      assert (Forall RS (snd cl)) as Hc by (rewrite allP_in in K2; rewrite Forall_forall in *; auto). destruct (clause_reads ind cl Hc) as (tl & L1 & L2).
      use_expr K1. exists ([w "case"] ++ ts0 ++ [y ":"] ++ tl). split; [now constructor|]. intros s. subst f. cbn [fst snd]. set (ct := if fst cl then _ else _) in *. lxt. }
    exists ([w "switch"; y "("] ++ ts ++ [y ")"; y "{"] ++ tc ++ [w "default"; y ":"] ++ td ++ [y "}"]). split; [now constructor|].
    intros s. unfold in_braces. set (cs := concat _) in *. lxt. rewrite default_text. lxt.
Qed.
