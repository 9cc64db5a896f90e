(** Statements, blocks, functions, items and modules. *)
From Verif Require Import BaseFacts IdentFacts NamesFacts PrinterFacts.
From Verif Require Export RustGrammarFacts3.
Local Open Scope string_scope.
Local Open Scope list_scope.
Local Open Scope N_scope.

(** *** Statements *)
Definition annotation_text (t : option rtype) : list N := match t with Some t => txt ": " ++ type_str t | None => [] end.
Lemma annotation_reads t : match t with Some t => RT t | None => True end -> rd (annotation_text t) (fun ts => gannotation ts t).
Proof.
  destruct t as [t|]; cbn [annotation_text].
  - intros [_ (ts & H1 & H2)]. exists ([y ":"] ++ ts). split; [now constructor|]. intros s Hs. lx.
  - intros _. exists []. split; [constructor|reflexivity].
Qed.
Lemma annotation_follow t s : follow (annotation_text t ++ txt " = " ++ s).
Proof. destruct t; fol. Qed.
Lemma rs_let p t e : RP p -> match t with Some t => RT t | None => True end -> RE false 0 e -> RS (SLet false p t e).
Proof.
  intros (ts & H1 & H2) Ht He ind. apply annotation_reads in Ht as (tt & H3 & H4). destruct (He ind) as [_ (ts' & H5 & H6)].
  exists ([w "let"] ++ ts ++ tt ++ [y "="] ++ ts' ++ [y ";"]). split; [now constructor|]. intros s Hs.
  change (stmt_str ind (SLet false p t e)) with (txt "let " ++ [] ++ pat_str p ++ annotation_text t ++ txt " = " ++ expr_str ind e ++ txt ";").
  rewrite <- !app_assoc. rewrite (lex_lit (txt "let ") _ eq_refl). rewrite app_nil_l. rewrite H2 by apply annotation_follow. lx.
Qed.
Lemma rs_let_mut x t e : is_name x -> match t with Some t => RT t | None => True end -> RE false 0 e -> RS (SLet true (PVar false x) t e).
Proof.
  intros Hx Ht He ind. apply annotation_reads in Ht as (tt & H3 & H4). destruct (He ind) as [_ (ts' & H5 & H6)].
  exists ([w "let"; w "mut"; Word x] ++ tt ++ [y "="] ++ ts' ++ [y ";"]). split; [now constructor|]. intros s Hs. apply is_name_text in Hx.
  change (stmt_str ind (SLet true (PVar false x) t e)) with ((txt "let " ++ txt "mut ") ++ x ++ annotation_text t ++ txt " = " ++ expr_str ind e ++ txt ";").
  rewrite <- (app_assoc (txt "let " ++ txt "mut ")). rewrite (lex_lit (txt "let " ++ txt "mut ") _ eq_refl). rewrite <- !app_assoc. rewrite (lex_name x _ Hx) by apply annotation_follow. lx.
Qed.
Lemma rs_semi e : RE false 0 e -> starts_block e = false -> RS (SSemi e).
Proof.
  intros He Hb ind. destruct (He ind) as [_ (ts & H1 & H2)]. exists (ts ++ [y ";"]). split; [now constructor|]. intros s Hs. cbn [stmt_str]. lx.
Qed.
Lemma rs_expr e : RE false 0 e -> block_like e = true -> RS (SExpr e).
Proof.
  intros He Hb ind. destruct (He ind) as [_ (ts & H1 & H2)]. exists ts. split; [now constructor|]. exact H2.
Qed.
Lemma rs_for p e b : RP p -> RE true 0 e -> RB b -> RS (SFor p e b).
Proof.
  intros (ts & H1 & H2) He Hb ind. destruct (He ind) as [_ (ts' & H3 & H4)]. destruct (Hb ind) as [_ (ts'' & H5 & H6)].
  exists ([w "for"] ++ ts ++ [w "in"] ++ ts' ++ ts''). split; [now constructor|]. intros s Hs. cbn [stmt_str]. lx.
Qed.
Lemma rs_loop b : RB b -> RS (SLoop b).
Proof.
  intros Hb ind. destruct (Hb ind) as [_ (ts & H5 & H6)]. exists ([w "loop"] ++ ts). split; [now constructor|]. intros s Hs. cbn [stmt_str]. lx.
Qed.
Lemma rs_if c b : RE true 0 c -> RB b -> RS (SIf c b).
Proof.
  intros He Hb ind. destruct (He ind) as [_ (ts' & H3 & H4)]. destruct (Hb ind) as [_ (ts'' & H5 & H6)].
  exists ([w "if"] ++ ts' ++ ts''). split; [now constructor|]. intros s Hs. cbn [stmt_str]. lx.
Qed.
Lemma rs_if_let p e b : RP p -> RE true 3 e -> RB b -> RS (SIfLet p e b).
Proof.
  intros (ts & H1 & H2) He Hb ind. destruct (He ind) as [_ (ts' & H3 & H4)]. destruct (Hb ind) as [_ (ts'' & H5 & H6)].
  exists ([w "if"; w "let"] ++ ts ++ [y "="] ++ ts' ++ ts''). split; [now constructor|]. intros s Hs. cbn [stmt_str]. lx.
Qed.
Lemma rs_fn f : RF f -> RS (SFn f).
Proof. intros Hf ind. destruct (Hf ind) as (ts & H1 & H2). exists ts. split; [now constructor|]. intros s _. apply H2. Qed.
Lemma rs_blank : RS SBlank.
Proof. intros ind. exists []. split; [constructor|reflexivity]. Qed.

(** *** Blocks *)
Lemma stmts_inline ind ss : Forall RS ss -> rdl (concat (map (fun s => stmt_str ind s ++ txt " ") ss)) (fun ts => many gstmt ts ss).
Proof.
  intros H. apply rd_many. eapply Forall_impl; [|exact H]. intros s Hs. destruct (Hs ind) as (ts & H1 & H2). exists ts. split; [exact H1|]. intros s'. lx.
Qed.
Lemma stmts_lines ind ss : Forall RS ss ->
  rdl (concat (map (fun s => match s with SBlank => nl | _ => indent (S ind) ++ stmt_str (S ind) s ++ nl end) ss)) (fun ts => many gstmt ts ss).
Proof.
  intros H. apply rd_many. eapply Forall_impl; [|exact H]. intros s Hs. destruct (Hs (S ind)) as (ts & H1 & H2).
  assert (rdl (indent (S ind) ++ stmt_str (S ind) s ++ nl) (fun ts => gstmt ts s)) as K. { exists ts. split; [exact H1|]. intros s'. lx. }
  destruct s; try exact K. exists []. split; [constructor|reflexivity].
Qed.
Lemma rb_block inline ss tail : Forall RS ss -> match tail with Some e => RE false 0 e /\ stands e = true | None => True end -> RB (Blk inline ss tail).
Proof.
  intros Hs Ht ind.
  assert (forall ind, exists ts, (match tail with Some e => gexpr false 0 ts e /\ stands e = true | None => ts = [] end) /\
    match tail with Some e => forall s, follow s -> lex [] (expr_str ind e ++ s) = ts ++ lex [] s | None => True end) as K.
  { clear ind. intros ind. destruct tail as [e|]; [|now exists []]. destruct Ht as [He Hst]. destruct (He ind) as [_ (ts & H1 & H2)]. now exists ts. }
  destruct inline.
  - destruct (stmts_inline ind ss Hs) as (ts & H1 & H2). destruct (K ind) as (ts' & H3 & H4). cbn [block_str]. split; [right; cbn; tauto|].
    set (l := concat _) in *. destruct tail as [e|].
    + destruct H3 as [H3 H5]. exists ([y "{"] ++ ts ++ ts' ++ [y "}"]). split; [now constructor|]. intros s. lx.
    + exists ([y "{"] ++ ts ++ [y "}"]). split; [now constructor|]. intros s. lx.
  - assert (ss = [] /\ tail = None \/ block_str ind (Blk false ss tail) =
      txt "{" ++ nl ++ concat (map (fun s => match s with SBlank => nl | _ => indent (S ind) ++ stmt_str (S ind) s ++ nl end) ss) ++
      match tail with Some e => indent (S ind) ++ expr_str (S ind) e ++ nl | None => [] end ++ indent ind ++ txt "}") as [[-> ->]|E].
    { destruct ss; [destruct tail; [right; reflexivity|now left]|right; reflexivity]. }
    + split; [right; cbn; tauto|]. exists ([y "{"] ++ [] ++ [y "}"]). split; [apply g_blk; constructor|]. intros s.
      change (block_str ind (Blk false [] None)) with (txt "{}"). lx.
    + rewrite E. split; [right; cbn; tauto|]. destruct (stmts_lines ind ss Hs) as (ts & H1 & H2). destruct (K (S ind)) as (ts' & H3 & H4).
      set (l := concat _) in *. destruct tail as [e|].
      * destruct H3 as [H3 H5]. exists ([y "{"] ++ ts ++ ts' ++ [y "}"]). split; [now constructor|]. intros s. lx.
      * exists ([y "{"] ++ ts ++ [y "}"]). split; [now constructor|]. intros s. lx.
Qed.

(** *** Functions *)
Definition RPar (p : param) : Prop := rd (param_str p) (fun ts => gparam ts p).
Lemma rpar_self : RPar ParSelf.
Proof.
  exists [y "&"; w "self"]. split; [reflexivity|]. intros s Hs. cbn [param_str]. rewrite lex_app; [reflexivity|discriminate|]. now apply follow_no_join.
Qed.
Lemma rpar m x t : is_name x -> rd (type_str t) (fun ts => gtype ts t) -> RPar (Par m x t).
Proof.
  intros Hx (ts & H1 & H2). exists ((if m then [w "mut"] else []) ++ [Word x; y ":"] ++ ts). split; [split; [exact Hx|now exists ts]|].
  intros s Hs. apply is_name_text in Hx. cbn [param_str]. destruct m; lx.
Qed.
Lemma rf_fn public name bound lines params ret body : is_name name ->
  match bound with Some b => rd b (fun ts => gpath ts b) | None => True end -> Forall RPar params -> RT ret -> RB body ->
  RF (FnDef public name bound lines params ret body).
Proof.
  intros Hn Hb Hp [_ (tr & R1 & R2)] Hbody ind. destruct (Hbody ind) as [_ (ts & B1 & B2)]. cbn [fn_str].
  assert (exists tb, (match bound with Some b => exists ts, gpath ts b /\ tb = [y "<"; w "T"; y ":"] ++ ts ++ [y ">"] | None => tb = [] end) /\
    forall s, follow s -> lex [] (match bound with Some b => txt "<T: " ++ b ++ txt ">" | None => [] end ++ s) = tb ++ lex [] s) as (tb & T1 & T2).
  { destruct bound as [b|].
    - destruct Hb as (tq & Q1 & Q2). exists ([y "<"; w "T"; y ":"] ++ tq ++ [y ">"]). split; [now exists tq|]. intros s _. lx.
    - now exists []. }
  assert (exists tp, commas gparam tp params /\ forall s,
    lex [] ((if lines then txt "(" ++ nl ++ concat (map (fun p => indent (S ind) ++ param_str p ++ txt "," ++ nl) params) ++ indent ind ++ txt ")"
       else parens (map param_str params)) ++ s) = ([y "("] ++ tp ++ [y ")"]) ++ lex [] s) as (tp & P1 & P2).
  { destruct lines.
    - destruct (rd_lines gparam param_str (indent (S ind)) (txt "," ++ nl) params (lex_spaces _) lex_comma_nl) as (tp & P1 & P2); [intros s; fol|exact Hp|].
      exists tp. split; [exact P1|]. intros s. set (l := concat _) in *. lx.
    - destruct (rd_parens gparam param_str params Hp) as (tp' & (tp & P1 & ->) & P2). exists tp. split; [exact P1|exact P2]. }
  set (bt := match bound with Some b => txt "<T: " ++ b ++ txt ">" | None => @nil N end) in *. set (pt := if lines then _ else _) in *.
  exists ((if public : bool then [w "pub"] else []) ++ [w "fn"; Word name] ++ tb ++ [y "("] ++ tp ++ [y ")"; y "->"] ++ tr ++ ts). split; [now constructor|].
  intros s. apply is_name_text in Hn. rewrite <- !app_assoc.
  assert (forall s, lex [] ((if public then txt "pub " else []) ++ s) = (if public then [w "pub"] else []) ++ lex [] s) as U. { intros s'. destruct public; lx. }
  rewrite U. rewrite (lex_lit (txt "fn ") _ eq_refl).
  assert (follow (pt ++ txt " -> " ++ type_str ret ++ txt " " ++ block_str ind body ++ s)) as F1. { subst pt. destruct lines; fol. }
  assert (follow (bt ++ pt ++ txt " -> " ++ type_str ret ++ txt " " ++ block_str ind body ++ s)) as F2. { subst bt. destruct bound; [fol|exact F1]. }
  rewrite lex_name; [|exact Hn|exact F2]. rewrite T2 by exact F1. rewrite P2. lx.
Qed.

(** *** Items and modules *)
Lemma lex_derive ind s : lex [] (derive_line ind ++ s) = derives ++ lex [] s.
Proof. unfold derive_line. lx. Qed.
Definition RI (i : item) : Prop := forall ind, rdl (item_str ind i) (fun ts => gitem ts i).
Lemma ri_struct name fields : is_name name -> Forall (fun f => is_name (fst f) /\ RT (snd f)) fields -> RI (IStruct name fields).
Proof.
  intros Hn Hf ind. apply is_name_text in Hn as Hn'. cbn [item_str].
  destruct (rd_lines (fun ts f => is_name (fst f) /\ exists ts', gtype ts' (snd f) /\ ts = [w "pub"; Word (fst f); y ":"] ++ ts')
    (fun f => txt "pub " ++ fst f ++ txt ": " ++ type_str (snd f)) (indent (S ind)) (txt "," ++ nl) fields) as (ts & H1 & H2).
  { apply lex_spaces. } { apply lex_comma_nl. } { intros s. fol. }
  { eapply Forall_impl; [|exact Hf]. intros [x t] [Hx [_ (ts' & T1 & T2)]]. cbn [fst snd] in *. exists ([w "pub"; Word x; y ":"] ++ ts'). split; [split; [exact Hx|now exists ts']|].
    intros s Hs. apply is_name_text in Hx. lx. }
  exists (derives ++ [w "pub"; w "struct"; Word name; y "{"] ++ ts ++ [y "}"]). split; [now constructor|]. intros s.
  assert (map (fun f => indent (S ind) ++ txt "pub " ++ fst f ++ txt ": " ++ type_str (snd f) ++ txt "," ++ nl) fields =
    map (fun a => indent (S ind) ++ (txt "pub " ++ fst a ++ txt ": " ++ type_str (snd a)) ++ txt "," ++ nl) fields) as ->.
  { apply map_ext. intros a. now rewrite <- !app_assoc. }
  set (l := concat _) in *. rewrite <- !app_assoc. rewrite lex_derive. lx.
Qed.
Lemma ri_enum name variants : is_name name -> Forall (fun v => is_name (fst v) /\ Forall RT (snd v)) variants -> RI (IEnum name variants).
Proof.
  intros Hn Hf ind. apply is_name_text in Hn as Hn'. cbn [item_str].
  destruct (rd_lines (fun ts v => is_name (fst v) /\
      ((snd v = [] /\ ts = [Word (fst v)]) \/
       (snd v <> [] /\ exists ts', commas gtype ts' (snd v) /\ ts = [Word (fst v); y "("] ++ ts' ++ [y ")"])))
    (fun v => fst v ++ match snd v with [] => [] | ts => parens (map type_str ts) end) (indent (S ind)) (txt "," ++ nl) variants) as (ts & H1 & H2).
  { apply lex_spaces. } { apply lex_comma_nl. } { intros s. fol. }
  { eapply Forall_impl; [|exact Hf]. intros [x l] [Hx Hl]. cbn [fst snd] in *. apply is_name_text in Hx as Hx'. destruct l as [|t l].
    - exists [Word x]. split; [split; [exact Hx|now left]|]. intros s Hs. rewrite app_nil_r. lx.
    - destruct (rd_parens gtype type_str (t :: l)) as (ts0 & (ts' & T1 & ->) & T2). { eapply Forall_impl; [|exact Hl]. intros a Ha. apply Ha. }
      exists ([Word x; y "("] ++ ts' ++ [y ")"]). split; [split; [exact Hx|right; split; [discriminate|now exists ts']]|].
      intros s Hs. rewrite <- !app_assoc. rewrite lex_name; [|exact Hx'|fol]. rewrite T2. now rewrite <- !app_assoc. }
  exists (derives ++ [w "pub"; w "enum"; Word name; y "{"] ++ ts ++ [y "}"]). split; [now constructor|]. intros s.
  assert (map (fun v => indent (S ind) ++ fst v ++ match snd v with [] => [] | ts => parens (map type_str ts) end ++ txt "," ++ nl) variants =
    map (fun a => indent (S ind) ++ (fst a ++ match snd a with [] => [] | ts => parens (map type_str ts) end) ++ txt "," ++ nl) variants) as ->.
  { apply map_ext. intros a. now rewrite <- !app_assoc. }
  set (l := concat _) in *. rewrite <- !app_assoc. rewrite lex_derive. lx.
Qed.
Lemma rd_join_nl {A} (G : list rtok -> A -> Prop) (g : A -> str) l : Forall (fun a => rdl (g a) (fun ts => G ts a)) l ->
  rdl (join_with nl (map g l)) (fun ts => many G ts l).
Proof.
  induction 1 as [|a l (ts & H1 & H2) _ (tss & H3 & H4)].
  - exists []. split; [constructor|reflexivity].
  - exists (ts ++ tss). split; [now constructor|]. intros s. destruct l as [|b l].
    + inversion H3; subst. cbn [map join_with]. now rewrite app_nil_r.
    + cbn [map join_with]. cbn [map join_with] in H4. set (more := match map g l with [] => g b | _ => _ end) in *. rewrite <- !app_assoc. now rewrite H2, lex_nl, H4.
Qed.
Lemma ri_impl trait name fns : match trait with Some t => RT t | None => True end -> is_name name -> Forall RF fns -> RI (IImpl trait name fns).
Proof.
  intros Ht Hn Hf ind. apply is_name_text in Hn as Hn'. cbn [item_str].
  destruct (rd_join_nl gfn (fun f => indent (S ind) ++ fn_str (S ind) f ++ nl) fns) as (ts & H1 & H2).
  { eapply Forall_impl; [|exact Hf]. intros f Hr. destruct (Hr (S ind)) as (tf & F1 & F2). exists tf. split; [exact F1|]. intros s. lx. }
  set (l := join_with _ _) in *. destruct trait as [t|].
  - destruct Ht as [_ (tt & T1 & T2)]. exists ([w "impl"] ++ tt ++ [w "for"; Word name; y "{"] ++ ts ++ [y "}"]). split; [now constructor|]. intros s. lx.
  - exists ([w "impl"; Word name; y "{"] ++ ts ++ [y "}"]). split; [now constructor|]. intros s. lx.
Qed.

Inductive RM : rmod -> Prop :=
| rm_mod children items : (forall c, In c children -> is_name (fst c) /\ RM (snd c)) -> Forall RI items -> RM (RMod children items).
Fixpoint module_reads m (H : RM m) {struct H} : forall ind, rdl (mod_str ind m) (fun ts => gmod ts m).
Proof.
  destruct H as [children items Hc Hi]. intros ind.
  set (child := fun c : str * rmod => indent ind ++ txt "pub mod " ++ fst c ++ txt " {" ++ nl ++ mod_str (S ind) (snd c) ++ indent ind ++ txt "}" ++ nl).
  set (G := fun ts (c : str * rmod) => is_name (fst c) /\ exists ts', gmod ts' (snd c) /\ ts = [w "pub"; w "mod"; Word (fst c); y "{"] ++ ts' ++ [y "}"]).
  assert (Forall (fun c => rdl (child c) (fun ts => G ts c)) children) as K.
  { apply Forall_forall. intros [x m] Hin. destruct (Hc _ Hin) as [Hx Hm]. destruct (module_reads m Hm (S ind)) as (ts & M1 & M2). cbn [fst snd] in *.
    exists ([w "pub"; w "mod"; Word x; y "{"] ++ ts ++ [y "}"]). split; [split; [exact Hx|now exists ts]|]. intros s. unfold child. cbn [fst snd]. apply is_name_text in Hx. lx. }
  change (mod_str ind (RMod children items)) with (join_with nl (map child children ++ map (item_str ind) items)).
  assert (Forall (fun i => rdl (item_str ind i) (fun ts => gitem ts i)) items) as Ki. { eapply Forall_impl; [|exact Hi]. intros i H. apply H. }
  clear Hc Hi module_reads.
  assert (exists ts ts', many G ts children /\ many gitem ts' items /\
    forall s, lex [] (join_with nl (map child children ++ map (item_str ind) items) ++ s) = (ts ++ ts') ++ lex [] s) as (ts & ts' & A & B & C).
  { induction K as [|c children (tc & C1 & C2) _ (ts & ts' & A & B & C)].
    - destruct (rd_join_nl gitem (item_str ind) items Ki) as (ts' & I1 & I2). exists [], ts'. split; [constructor|]. split; [exact I1|exact I2].
    - exists (tc ++ ts), ts'. split; [now constructor|]. split; [exact B|]. intros s. cbn [map app join_with].
      destruct (map child children ++ map (item_str ind) items) as [|z l] eqn:E.
      + apply app_eq_nil in E as [E1 E2]. apply map_eq_nil in E1, E2. subst. inversion A; subst. inversion B; subst. rewrite !app_nil_r. apply C2.
      + change (lex [] ((child c ++ nl ++ join_with nl (z :: l)) ++ s) = ((tc ++ ts) ++ ts') ++ lex [] s). set (more := join_with nl (z :: l)) in *.
        rewrite <- !app_assoc. rewrite C2, lex_nl, C. now rewrite <- !app_assoc. }
  exists (ts ++ ts'). split; [now constructor|exact C].
Qed.
