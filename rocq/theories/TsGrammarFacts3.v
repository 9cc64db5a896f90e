(** Expressions. *)
From Verif Require Import BaseFacts IdentFacts.
From Verif Require Export TsGrammarFacts2.
Local Open Scope string_scope.
Local Open Scope list_scope.
Local Open Scope N_scope.

Definition wcallee (f : jcallee) : Prop :=
  match f with CFn x => is_ident x | CPath p x => Forall is_ident p /\ is_ident x /\ p <> [] | CGlobal _ => True end.
(** [we l e]: the text of [e] reads as [e] where level [l] is asked for. *)
Fixpoint we (l : nat) (e : jexpr) {struct e} : Prop :=
  match e with
  | XVar x => (l <=? 18)%nat = true /\ is_ident x /\ x <> txt "undefined"
  | XNum f n => (l <=? 17)%nat = true /\ match f with Binary8 => n <? 256 = true | _ => True end
  | XBig _ _ => (l <=? 17)%nat = true
  | XBool _ | XNull | XUndefined => (l <=? 18)%nat = true
  | XStr s => (l <=? 18)%nat = true /\ plain s
  | XProp e x => (l <=? 18)%nat = true /\ we 18 e /\ is_ident x
  | XIndex e i => (l <=? 18)%nat = true /\ we 18 e /\ we 1 i
  | XCall _ f args => (l <=? 18)%nat = true /\ wcallee f /\ allP (we 1) args
  | XMethod _ e _ args => (l <=? 18)%nat = true /\ we 18 e /\ allP (we 1) args
  | XNew _ _ args => (l <=? 18)%nat = true /\ allP (we 1) args
  | XNeg e => (l <=? 14)%nat = true /\ match e with XVar _ | XBig _ _ => True | _ => False end /\ we 14 e
  | XBin _ op a b => (l <=? op_level op)%nat = true /\ we (op_level op) a /\ we (S (op_level op)) b
  | XCond c a b => (l <=? 2)%nat = true /\ we 3 c /\ we 1 a /\ we 1 b
  | XParen _ e => (l <=? 18)%nat = true /\ we 1 e
  | XArr _ es => (l <=? 18)%nat = true /\ allP (we 1) es
  | XObj _ ps => (l <=? 18)%nat = true /\ allP (fun p => is_ident (fst p) /\ match snd p with Some e => we 1 e | None => True end) ps
  | XAs e t => (l <=? 1)%nat = true /\ we 9 e /\ wty 1 t
  | XIn x e => (l <=? 9)%nat = true /\ plain x /\ we 10 e
  | XInstance e _ => (l <=? 9)%nat = true /\ we 9 e
  | XOrs es => (l <=? 3)%nat = true /\ es <> [] /\ allP (we 4) es
  end.
Section ExprInd.
Context (P : jexpr -> Prop) (Hvar : forall x, P (XVar x)) (Hnum : forall f n, P (XNum f n)) (Hbig : forall g n, P (XBig g n)) (Hbool : forall b, P (XBool b))
  (Hnull : P XNull) (Hund : P XUndefined) (Hstr : forall s, P (XStr s)) (Hprop : forall e x, P e -> P (XProp e x))
  (Hindex : forall e i, P e -> P i -> P (XIndex e i)) (Hcall : forall l f args, Forall P args -> P (XCall l f args))
  (Hmeth : forall l e m args, P e -> Forall P args -> P (XMethod l e m args)) (Hnew : forall l c args, Forall P args -> P (XNew l c args))
  (Hneg : forall e, P e -> P (XNeg e)) (Hbin : forall n op a b, P a -> P b -> P (XBin n op a b)) (Hcond : forall c a b, P c -> P a -> P b -> P (XCond c a b))
  (Hparen : forall l e, P e -> P (XParen l e)) (Harr : forall l es, Forall P es -> P (XArr l es))
  (Hobj : forall l ps, Forall (fun p : str * option jexpr => match snd p with Some e => P e | None => True end) ps -> P (XObj l ps))
  (Has : forall e t, P e -> P (XAs e t)) (Hin : forall x e, P e -> P (XIn x e)) (Hinst : forall e c, P e -> P (XInstance e c)) (Hors : forall es, Forall P es -> P (XOrs es)).
Let Q (p : str * option jexpr) : Prop := match snd p with Some e => P e | None => True end.
Fixpoint jexpr_ind' (e : jexpr) : P e :=
  let all := fix go es : Forall P es := match es with [] => Forall_nil _ | e :: es' => Forall_cons e (jexpr_ind' e) (go es') end in
  match e with
  | XVar x => Hvar x | XNum f n => Hnum f n | XBig g n => Hbig g n | XBool b => Hbool b | XNull => Hnull | XUndefined => Hund | XStr s => Hstr s
  | XProp e x => Hprop e x (jexpr_ind' e)
  | XIndex e i => Hindex e i (jexpr_ind' e) (jexpr_ind' i)
  | XCall l f args => Hcall l f args (all args)
  | XMethod l e m args => Hmeth l e m args (jexpr_ind' e) (all args)
  | XNew l c args => Hnew l c args (all args)
  | XNeg e => Hneg e (jexpr_ind' e)
  | XBin n op a b => Hbin n op a b (jexpr_ind' a) (jexpr_ind' b)
  | XCond c a b => Hcond c a b (jexpr_ind' c) (jexpr_ind' a) (jexpr_ind' b)
  | XParen l e => Hparen l e (jexpr_ind' e)
  | XArr l es => Harr l es (all es)
  | XObj l ps => Hobj l ps ((fix go ps : Forall Q ps :=
      match ps with
      | [] => Forall_nil Q
      | (x, Some e) :: ps' => @Forall_cons _ Q (x, Some e) ps' (jexpr_ind' e) (go ps')
      | (x, None) :: ps' => @Forall_cons _ Q (x, None) ps' I (go ps')
      end) ps)
  | XAs e t => Has e t (jexpr_ind' e) | XIn x e => Hin x e (jexpr_ind' e) | XInstance e c => Hinst e c (jexpr_ind' e) | XOrs es => Hors es (all es)
  end.
End ExprInd.

Definition RE (l : nat) (e : jexpr) : Prop :=
  forall ind, head_ok (jexpr_str ind e) /\ rd (18 <=? l)%nat (jexpr_str ind e) (fun ts => gexpr l ts e).
Lemma re_weaken k l e : RE k e -> (l <=? k)%nat = true -> RE l e.
Proof.
  intros H Hk ind. destruct (H ind) as [H1 (ts & H2 & H3)]. apply Nat.leb_le in Hk. split; [exact H1|]. exists ts. split; [now apply (g_weaken k)|].
  intros s Hs. apply H3. destruct (Nat.leb_spec 18 l).
  - assert (18 <=? k = true)%nat as -> by (apply Nat.leb_le; lia). exact Hs.
  - destruct (18 <=? k)%nat; [now apply follow_weaken|exact Hs].
Qed.
Lemma re_use l e ind : RE l e -> (l <=? 17)%nat = true -> head_ok (jexpr_str ind e) /\ rd false (jexpr_str ind e) (fun ts => gexpr l ts e).
Proof. intros H Hl. destruct (H ind) as [H1 H2]. split; [exact H1|]. apply Nat.leb_le in Hl. assert (18 <=? l = false)%nat as E by (apply Nat.leb_gt; lia). now rewrite E in H2. Qed.
Lemma re_use18 e ind : RE 18 e -> head_ok (jexpr_str ind e) /\ rd true (jexpr_str ind e) (fun ts => gexpr 18 ts e).
Proof. intros H. exact (H ind). Qed.
(** Punctuation around lists. *)
Lemma lex_open s : lx (txt "(" ++ s) = y "(" :: lx s. Proof. lxt. Qed.
Lemma lex_close s : lx (txt ")" ++ s) = y ")" :: lx s. Proof. lxt. Qed.
Lemma lex_bra s : lx (txt "[" ++ s) = y "[" :: lx s. Proof. lxt. Qed.
Lemma lex_ket s : lx (txt "]" ++ s) = y "]" :: lx s. Proof. lxt. Qed.
Lemma args_read lines ind args : Forall (fun e => RE 1 e) args ->
  rdl (listing lines ind (txt "(") (txt ")") (map (jexpr_str (deeper lines ind)) args)) (fun ts => exists ts', commas (gexpr 1) ts' args /\ ts = [y "("] ++ ts' ++ [y ")"]).
Proof.
  intros H. apply rd_listing; [exact lex_open|exact lex_close|intros s; fol|]. eapply Forall_impl; [|exact H]. intros e He. exact (proj2 (re_use 1 e _ He eq_refl)).
Qed.
Lemma meth_spelled m : jmeth_str m = meth_word m.
Proof. now destruct m. Qed.
Lemma class_spelled c : class_str c = class_word c.
Proof. now destruct c. Qed.
Lemma meth_ident m : is_ident (meth_word m).
Proof. destruct m; now apply identb_ident. Qed.
Lemma class_ident c : is_ident (class_word c).
Proof. destruct c; now apply identb_ident. Qed.
Lemma callee_text f : wcallee f -> Forall is_ident (callee_path f) /\ callee_path f <> [] /\ jcallee_str f = join_with (txt ".") (callee_path f).
Proof.
  destruct f as [x|p x|g]; cbn [wcallee callee_path jcallee_str].
  - intros H. split; [constructor; [exact H|constructor]|]. now split.
  - intros (H1 & H2 & H3). split; [apply Forall_app; split; [exact H1|now constructor]|]. split; [now destruct p|].
    clear H1 H2. induction p as [|a p IH]; [now destruct H3|]. destruct p as [|b p]; [reflexivity|]. cbn [app]. rewrite (join_cons _ a (b :: p)) by discriminate.
    rewrite (join_cons _ a (b :: p ++ [x])) by discriminate. rewrite <- !app_assoc. apply f_equal. apply f_equal. apply IH. discriminate.
  - intros _. destruct g; (split; [repeat (constructor; [now apply identb_ident|]); constructor|]; now split).
Qed.
Lemma lex_word_lit (x s : str) : forallb word_char x && negb (restricted x) && negb (str_eqb x []) = true -> follow false s -> lx (x ++ s) = JWord x :: lx s.
Proof.
  intros H Hs. apply andb_true_iff in H as [H H3]. apply andb_true_iff in H as [H1 H2]. apply (lex_word false); [|discriminate|exact Hs].
  split; [intros ->; discriminate H3|]. split; [now apply Forall_forall, forallb_forall|now apply negb_true_iff].
Qed.
Lemma lex_keyword_lit (x s : str) : identb (txt "a" ++ x) && forallb word_char x && match x with [] => false | c :: _ => negb (ascii_is_digit c) end && negb (restricted x) = true -> follow true s -> lx (x ++ s) = JWord x :: lx s.
Proof.
  intros H Hs. apply andb_true_iff in H as [H H4]. apply andb_true_iff in H as [H H3]. apply andb_true_iff in H as [_ H2]. apply (lex_word true); [| |exact Hs].
  - split; [now destruct x|]. split; [now apply Forall_forall, forallb_forall|now apply negb_true_iff].
  - intros _. destruct x; [exact I|now apply negb_true_iff].
Qed.
Lemma number_text t : word_text t -> forall s, follow false s -> lx (t ++ s) = JWord t :: lx s.
Proof. intros H s Hs. apply (lex_word false); [exact H|discriminate|exact Hs]. Qed.
Lemma literal_text n t : decimal_literal n t -> word_text t.
Proof. intros H. rewrite <- (app_nil_r t). apply (decimal_literal_text n); [exact H|constructor]. Qed.
Lemma big_text n t : decimal_literal n t -> word_text (t ++ txt "n").
Proof. intros H. apply (decimal_literal_text n); [exact H|]. constructor; [reflexivity|constructor]. Qed.
Lemma dotted_name e x ts : (forall s, follow true s -> lx (e ++ s) = ts ++ lx s) -> is_ident x -> forall s, follow true s -> lx ((e ++ txt "." ++ x) ++ s) = (ts ++ [y "."; JWord x]) ++ lx s.
Proof.
  intros H Hx s Hs. rewrite <- !app_assoc. rewrite H by fol. rewrite lex_dot by (apply word_start_app; now apply ident_start). now rewrite lex_ident.
Qed.
Lemma op_text op s : lx (txt " " ++ jop_str op ++ txt " " ++ s) = op_symbol op :: lx s.
Proof. destruct op; cbn [jop_str]; lxt. Qed.
Lemma op_text_nl op s : lx (txt " " ++ jop_str op ++ nl ++ s) = op_symbol op :: lx s.
Proof. destruct op; reflexivity. Qed.
Lemma op_low op : (S (op_level op) <=? 17)%nat = true.
Proof. destruct op; reflexivity. Qed.
Lemma op_low' op : (op_level op <=? 17)%nat = true.
Proof. destruct op; reflexivity. Qed.
Lemma join_head (sep : str) (l : list str) : l <> [] -> head_ok (hd [] l) -> head_ok (join_with sep l).
Proof. destruct l as [|a l]; [congruence|]. intros _ H. cbn [hd] in H. destruct l; [exact H|]. now apply head_app. Qed.

Lemma expr_reads e : forall l, we l e -> RE l e.
Proof.
  induction e as [x|f n|g n|b| | |s|e x IHe|e i IHe IHi|lines f args IHargs|lines e m args IHe IHargs|lines c args IHargs|e IHe|newl op a b IHa IHb|c a b IHc IHa IHb
    |lines e IHe|lines es IHes|lines ps IHps|e t IHe|x e IHe|e c IHe|es IHes] using jexpr_ind'; intros l Hw; cbn [we] in Hw.
  - destruct Hw as (Hl & H1 & H2). apply (re_weaken 18); [|exact Hl]. intros ind. split; [now apply word_head, ident_start|]. exists [JWord x]. split; [now constructor|].
    intros s Hs. now apply lex_ident.
  - destruct Hw as (Hl & Hf). apply (re_weaken 17); [|exact Hl]. intros ind. cbn [jexpr_str].
    assert (word_text (num_str f n) /\ gexpr 17 [JWord (num_str f n)] (XNum f n)) as [H1 H2].
    { destruct f; cbn [num_str].
      - split; [now apply (literal_text n), print_number_literal|]. constructor. apply print_number_literal.
      - split; [now apply (literal_text n), print_grouped_literal|]. constructor. apply print_grouped_literal.
      - apply N.ltb_lt in Hf. destruct (binary8_literal n Hf) as [K1 K2]. split; [exact K2|]. now apply g_binary. }
    split; [now apply word_head, word_text_start|]. exists [JWord (num_str f n)]. split; [exact H2|]. now apply number_text.
  - apply (re_weaken 17); [|exact Hw]. intros ind. cbn [jexpr_str]. set (t := if g then print_grouped n else print_number n).
    assert (decimal_literal n t) as H1 by (subst t; destruct g; [apply print_grouped_literal|apply print_number_literal]). pose proof (big_text n t H1) as H2.
    split; [now apply word_head, word_text_start|]. exists [JWord (t ++ txt "n")]. split; [now constructor|]. now apply number_text.
  - apply (re_weaken 18); [|exact Hw]. intros ind. destruct b; (split; [left; reflexivity|]).
    + exists [w "true"]. split; [constructor|]. intros s Hs. cbn [jexpr_str]. now apply (lex_keyword_lit (txt "true")).
    + exists [w "false"]. split; [constructor|]. intros s Hs. cbn [jexpr_str]. now apply (lex_keyword_lit (txt "false")).
  - apply (re_weaken 18); [|exact Hw]. intros ind. split; [left; reflexivity|]. exists [w "null"]. split; [constructor|]. intros s Hs. now apply (lex_keyword_lit (txt "null")).
  - apply (re_weaken 18); [|exact Hw]. intros ind. split; [left; reflexivity|]. exists [w "undefined"]. split; [constructor|]. intros s Hs. now apply (lex_keyword_lit (txt "undefined")).
  - destruct Hw as [Hl H1]. apply (re_weaken 18); [|exact Hl]. intros ind. split; [right; cbn; tauto|]. exists [JString s]. split; [now constructor|]. intros s' Hs. cbn [jexpr_str]. lxt.
  - destruct Hw as (Hl & H1 & H2). apply (re_weaken 18); [|exact Hl]. intros ind. destruct (re_use18 e ind (IHe _ H1)) as [K1 (ts & K2 & K3)]. cbn [jexpr_str].
    split; [now apply head_app|]. exists (ts ++ [y "."; JWord x]). split; [now constructor|]. now apply dotted_name.
  - destruct Hw as (Hl & H1 & H2). apply (re_weaken 18); [|exact Hl]. intros ind. destruct (re_use18 e ind (IHe _ H1)) as [K1 (ts & K2 & K3)].
    destruct (re_use 1 i ind (IHi _ H2) eq_refl) as [_ (ts' & K5 & K6)]. cbn [jexpr_str].
    split; [now apply head_app|]. exists (ts ++ [y "["] ++ ts' ++ [y "]"]). split; [now constructor|]. intros s Hs. lxt.
  - destruct Hw as (Hl & H1 & H2). apply (re_weaken 18); [|exact Hl]. intros ind. destruct (callee_text f H1) as (F1 & F2 & F3). cbn [jexpr_str]. rewrite F3.
    destruct (args_read lines ind args) as (ts & (ts' & K1 & ->) & K2).
    { rewrite allP_in in H2. rewrite Forall_forall in *. auto. }
    split; [now apply head_app, word_head, path_start|]. exists (dotted (callee_path f) ++ [y "("] ++ ts' ++ [y ")"]). split; [now constructor|].
    intros s Hs. set (t := listing _ _ _ _ _) in *. assert (follow true (t ++ s)) by (unfold t, listing; destruct lines; fol). rewrite <- !app_assoc, lex_path, K2 by auto. now rewrite <- !app_assoc.
  - destruct Hw as (Hl & H1 & H2). apply (re_weaken 18); [|exact Hl]. intros ind. destruct (re_use18 e ind (IHe _ H1)) as [E1 (te & E2 & E3)]. cbn [jexpr_str]. rewrite meth_spelled.
    destruct (args_read lines ind args) as (ts & (ts' & K1 & ->) & K2).
    { rewrite allP_in in H2. rewrite Forall_forall in *. auto. }
    split; [now apply head_app|]. exists (te ++ [y "."; JWord (meth_word m); y "("] ++ ts' ++ [y ")"]). split; [constructor; auto; apply meth_ident|].
    intros s Hs. set (t := listing _ _ _ _ _) in *. assert (follow true (t ++ s)) as F by (unfold t, listing; destruct lines; fol).
    pose proof (dotted_name _ _ _ E3 (meth_ident m) (t ++ s) F) as D. rewrite <- !app_assoc in *. rewrite D, K2. cbn [app]. now rewrite <- !app_assoc.
  - destruct Hw as (Hl & H2). apply (re_weaken 18); [|exact Hl]. intros ind. cbn [jexpr_str]. rewrite class_spelled.
    destruct (args_read lines ind args) as (ts & (ts' & K1 & ->) & K2).
    { rewrite allP_in in H2. rewrite Forall_forall in *. auto. }
    split; [left; reflexivity|]. exists ([w "new"; JWord (class_word c); y "("] ++ ts' ++ [y ")"]). split; [constructor; auto; apply class_ident|].
    intros s Hs. set (t := listing _ _ _ _ _) in *. assert (follow true (t ++ s)) as F by (unfold t, listing; destruct lines; fol).
    rewrite <- !app_assoc. rewrite (lex_lit (txt "new ") _ eq_refl), lex_ident, K2; [rewrite <- !app_assoc; reflexivity|apply class_ident|exact F].
  - destruct Hw as (Hl & H1 & H2). apply (re_weaken 14); [|exact Hl]. intros ind. destruct (re_use 14 e ind (IHe _ H2) eq_refl) as [K1 (ts & K2 & K3)]. cbn [jexpr_str].
    split; [right; cbn; tauto|]. exists ([y "-"] ++ ts). split; [now constructor|]. intros s Hs.
    assert (word_start (jexpr_str ind e)) as W.
    { destruct e; try destruct H1; cbn [we] in H2.
      - apply ident_start, H2.
      - cbn [jexpr_str]. apply word_text_start, (big_text n). destruct grouped; [apply print_grouped_literal|apply print_number_literal]. }
    rewrite <- !app_assoc. rewrite lex_minus by now apply word_start_app. now rewrite K3.
  - destruct Hw as (Hl & H1 & H2). apply (re_weaken (op_level op)); [|exact Hl]. intros ind.
    destruct (re_use _ a ind (IHa _ H1) (op_low' op)) as [K1 (ts & K2 & K3)], (re_use _ b ind (IHb _ H2) (op_low op)) as [K4 (ts' & K5 & K6)].
    assert ((18 <=? op_level op)%nat = false) as -> by (destruct op; reflexivity).
    split; [destruct newl; cbn [jexpr_str]; now apply head_app|]. exists (ts ++ [op_symbol op] ++ ts'). split; [now constructor|]. intros s Hs.
    destruct newl as [k|]; cbn [jexpr_str]; rewrite <- !app_assoc, K3 by fol.
    + rewrite op_text_nl, lex_spaces, K6 by exact Hs. reflexivity.
    + rewrite op_text, K6 by exact Hs. reflexivity.
  - destruct Hw as (Hl & H1 & H2 & H3). apply (re_weaken 2); [|exact Hl]. intros ind.
    destruct (re_use _ c ind (IHc _ H1) eq_refl) as [K1 (ts & K2 & K3)], (re_use _ a ind (IHa _ H2) eq_refl) as [_ (ts' & K5 & K6)], (re_use _ b ind (IHb _ H3) eq_refl) as [_ (ts'' & K8 & K9)].
    cbn [jexpr_str]. split; [now apply head_app|]. exists (ts ++ [y "?"] ++ ts' ++ [y ":"] ++ ts''). split; [now constructor|]. intros s Hs. lxt.
  - destruct Hw as (Hl & H1). apply (re_weaken 18); [|exact Hl]. intros ind. cbn [jexpr_str]. destruct lines; (split; [right; cbn; tauto|]).
    + destruct (re_use _ e (S ind) (IHe _ H1) eq_refl) as [_ (ts & K2 & K3)]. exists ([y "("] ++ ts ++ [y ")"]). split; [now constructor|]. intros s Hs. lxt.
    + destruct (re_use _ e ind (IHe _ H1) eq_refl) as [_ (ts & K2 & K3)]. exists ([y "("] ++ ts ++ [y ")"]). split; [now constructor|]. intros s Hs. lxt.
  - destruct Hw as (Hl & H1). apply (re_weaken 18); [|exact Hl]. intros ind. cbn [jexpr_str]. split; [unfold listing; destruct lines; right; cbn; tauto|].
    destruct (rd_listing (gexpr 1) (jexpr_str (deeper lines ind)) lines ind (txt "[") (txt "]") (y "[") (y "]") es) as (ts & (ts' & K1 & ->) & K2).
    + exact lex_bra. + exact lex_ket. + intros s. fol.
    + rewrite allP_in in H1. rewrite Forall_forall in *. intros e He. apply (re_use 1); auto.
    + exists ([y "["] ++ ts' ++ [y "]"]). split; [now constructor|]. intros s Hs. apply K2.
  - destruct Hw as (Hl & H1). apply (re_weaken 18); [|exact Hl]. intros ind. cbn [jexpr_str]. split; [unfold listing; destruct lines; right; cbn; tauto|].
    destruct (rd_listing gprop (fun p => match snd p with Some e => fst p ++ txt ": " ++ jexpr_str (deeper lines ind) e | None => fst p end) lines ind
      (txt (if lines then "{" else "{ ")) (txt (if lines then "}" else " }")) (y "{") (y "}") ps) as (ts & (ts' & K1 & ->) & K2).
    + intros s. destruct lines; lxt. + intros s. destruct lines; lxt. + intros s. destruct lines; fol.
    + rewrite allP_in in H1. rewrite Forall_forall in *. intros [x [e|]] Hp; specialize (H1 _ Hp); specialize (IHps _ Hp); cbn [fst snd] in *; destruct H1 as [X1 X2].
      * destruct (re_use 1 e (deeper lines ind) (IHps _ X2) eq_refl) as [_ (ts & K2 & K3)]. exists ([JWord x; y ":"] ++ ts). split; [now constructor|]. intros s Hs. lxt.
      * exists [JWord x]. split; [now constructor|]. intros s Hs. lxt.
    + exists ([y "{"] ++ ts' ++ [y "}"]). split; [now constructor|]. intros s Hs. apply K2.
  - destruct Hw as (Hl & H1 & H2). apply (re_weaken 1); [|exact Hl]. intros ind. destruct (re_use _ e ind (IHe _ H1) eq_refl) as [K1 (ts & K2 & K3)].
    destruct (type_reads t 1 (or_introl eq_refl) H2) as [_ (ts' & K5 & K6)]. cbn [jexpr_str]. split; [now apply head_app|]. exists (ts ++ [w "as"] ++ ts'). split; [now constructor|]. intros s Hs. lxt.
  - destruct Hw as (Hl & H1 & H2). apply (re_weaken 9); [|exact Hl]. intros ind. destruct (re_use _ e ind (IHe _ H2) eq_refl) as [K1 (ts & K2 & K3)].
    cbn [jexpr_str]. split; [right; cbn; tauto|]. exists ([JString x; w "in"] ++ ts). split; [now constructor|]. intros s Hs. lxt.
  - destruct Hw as (Hl & H1). apply (re_weaken 9); [|exact Hl]. intros ind. destruct (re_use _ e ind (IHe _ H1) eq_refl) as [K1 (ts & K2 & K3)].
    pose proof (class_ident c) as Hc. cbn [jexpr_str]. rewrite class_spelled. split; [now apply head_app|]. exists (ts ++ [w "instanceof"; JWord (class_word c)]). split; [now constructor|]. intros s Hs. lxt.
  - destruct Hw as (Hl & H1 & H2). apply (re_weaken 3); [|exact Hl]. intros ind. cbn [jexpr_str]. rewrite allP_in in H2. rewrite Forall_forall in IHes. split.
    + apply join_head; [now destruct es|]. destruct es as [|e es]; [congruence|]. cbn [map hd]. apply (IHes e (or_introl eq_refl) 4%nat), H2. now left.
    + eapply rd_impl; [intros ts; apply g_ors|]. apply rd_chain; [exact H1| | |].
      * intros s. lxt.
      * intros s. fol.
      * apply Forall_forall. intros e He. apply (re_use 4); [|reflexivity]. auto.
Qed.
