(** Functions, type definitions and modules. *)
From Verif Require Import BaseFacts IdentFacts.
From Verif Require Export TsGrammarFacts4.
Local Open Scope string_scope.
Local Open Scope list_scope.
Local Open Scope N_scope.

Definition wparam (p : str * ttype) : Prop := is_ident (fst p) /\ wty 1 (snd p).
Definition wfn (f : jfn) : Prop := match f with JFn _ name _ params ret body => is_ident name /\ allP wparam params /\ wty 1 ret /\ allP ws body end.
Definition wdef (d : tdef) : Prop :=
  match d with
  | TdStruct name fields => is_ident name /\ allP wparam fields
  | TdChoice name cases => is_ident name /\ allP (allP wparam) cases
  end.
Definition wdecl (d : tdecl) : Prop := is_ident (td_name d) /\ allP wdef (td_types d) /\ allP wfn (td_fns d).
Fixpoint wmod (m : tmod) : Prop :=
  match m with TMod children decls => allP (fun c => is_ident (fst c) /\ wmod (snd c)) children /\ allP wdecl decls end.

Lemma body_wf ind b : allP ws b -> rdl (body_str ind b) (fun ts => many gstmt ts b).
Proof. intros H. apply body_reads. eapply allP_Forall; [exact H|]. intros s _. apply stmt_reads. Qed.
Lemma block_wf ind b : allP ws b -> rdl (in_braces ind (body_str (S ind) b)) (fun ts => gblock ts b).
Proof. intros H. apply braces_read. eapply allP_Forall; [exact H|]. intros s _. apply stmt_reads. Qed.
Lemma type_wf t : wty 1 t -> rd false (ttype_str t) (fun ts => gtype 1 ts t).
Proof. intros H. exact (proj2 (type_reads t 1 (or_introl eq_refl) H)). Qed.
Lemma param_wf p : wparam p -> rd false (fst p ++ txt ": " ++ ttype_str (snd p)) (fun ts => gparam ts p).
Proof.
  intros [H1 H2]. destruct (type_wf _ H2) as (ts & H3 & H4). exists ([JWord (fst p); y ":"] ++ ts). split; [split; [exact H1|now exists ts]|]. intros s Hs. lxt.
Qed.
Lemma fn_reads ind f : wfn f -> rdl (jfn_str ind f) (fun ts => gfn ts f).
Proof.
  destruct f as [exported name lines params ret body]. intros (H1 & H2 & H3 & H4). cbn [jfn_str].
  destruct (rd_listing gparam (fun p => fst p ++ txt ": " ++ ttype_str (snd p)) lines ind (txt "(") (txt ")") (y "(") (y ")") params) as (tp & (tp' & P1 & ->) & P2).
  { exact lex_open. } { exact lex_close. } { intros s. fol. }
  { eapply allP_Forall; [exact H2|]. intros p _. apply param_wf. }
  destruct (type_wf _ H3) as (tr & R1 & R2). destruct (block_wf ind body H4) as (tb & B1 & B2).
  exists ((if exported then [w "export"] else []) ++ [w "function"; JWord name; y "("] ++ tp' ++ [y ")"; y ":"] ++ tr ++ tb). split; [now constructor|].
  intros s. set (ps := listing _ _ _ _ _) in *. assert (forall s, follow true (ps ++ s)) as F by (intros r; unfold ps, listing; destruct lines; fol).
  set (bd := in_braces _ _) in *. rewrite <- !app_assoc. lx1.
  assert (forall r, lx (txt "function " ++ name ++ ps ++ r) = [w "function"; JWord name; y "("] ++ tp' ++ [y ")"] ++ lx r) as K.
  { intros r. rewrite (lex_lit (txt "function ") _ eq_refl), lex_ident, P2 by auto. rewrite <- !app_assoc. reflexivity. }
  destruct exported.
  - rewrite (lex_lit (txt "export ") _ eq_refl), K. lxt.
  - rewrite app_nil_l, K. lxt.
Qed.
Lemma def_reads ind d : wdef d -> rdl (tdef_str ind d) (fun ts => gdef ts d).
Proof.
  destruct d as [name fields|name cases]; intros [H1 H2]; cbn [tdef_str].
  - destruct (rd_lines gmember (fun f => fst f ++ txt ": " ++ ttype_str (snd f)) (indent2 (S ind)) (txt ";" ++ nl) (y ";") fields) as (ts & A1 & A2).
    { apply lex_spaces. } { intros s. lxt. } { intros s. fol. }
    { eapply allP_Forall; [exact H2|]. intros f _ [K1 K2]. apply member_reads'; [exact K1|]. now apply type_reads; [left|]. }
    exists ([w "export"; w "type"; JWord name; y "="; y "{"] ++ ts ++ [y "}"; y ";"]). split; [now constructor|]. intros s.
    rewrite (map_ext _ (fun a => indent2 (S ind) ++ (fst a ++ txt ": " ++ ttype_str (snd a)) ++ txt ";" ++ nl)) by (intros a; now rewrite <- !app_assoc).
    set (t := concat _) in *. lxt.
  - destruct cases as [|c cases].
    + exists [w "export"; w "type"; JWord name; y "="; w "never"; y ";"]. split; [now constructor|]. intros s.
      change (txt " =" ++ txt " never" ++ txt ";" ++ nl) with (txt " = never;" ++ nl). lxt.
    + set (g := fun c => nl ++ indent2 (S ind) ++ txt "| " ++ ttype_str (TtObj c)).
      assert (forall l, l <> [] -> allP (allP wparam) l -> exists ts, chain (fun ts c => gtype 2 ts (TtObj c)) (y "|") ts l /\
        forall s, follow false s -> lx (concat (map g l) ++ s) = [y "|"] ++ ts ++ lx s) as K.
      { induction l as [|a l IH]; [congruence|]. intros _ [W1 W2].
        destruct (type_reads (TtObj a) 2 (or_intror eq_refl) W1) as [_ (ts & A1 & A2)]. destruct l as [|b l].
        - exists ts. split; [now constructor|]. intros s Hs. cbn [map concat]. unfold g. rewrite app_nil_r. lxt.
        - destruct (IH ltac:(discriminate) W2) as (tl & L1 & L2). exists (ts ++ [y "|"] ++ tl). split; [now constructor|]. intros s Hs.
          change (concat (map g (a :: b :: l))) with (g a ++ concat (map g (b :: l))). set (more := concat (map g (b :: l))) in *.
          assert (follow false (more ++ s)) as F by (unfold more; cbn [map concat]; unfold g; fol). unfold g. lxt. }
      destruct (K (c :: cases) ltac:(discriminate) H2) as (ts & A1 & A2). exists ([w "export"; w "type"; JWord name; y "="; y "|"] ++ ts ++ [y ";"]). split; [now constructor|].
      intros s. set (t := concat _) in *. assert (forall r, lx (txt " =" ++ t ++ txt ";" ++ r) = [y "="; y "|"] ++ ts ++ [y ";"] ++ lx r) as K2.
      { intros r. assert (exists t', t = nl ++ t') as (t' & Et) by (unfold t; cbn [map concat]; unfold g; eexists; rewrite <- app_assoc; reflexivity).
        specialize (A2 (txt ";" ++ r) ltac:(fol)). rewrite Et in *. rewrite <- app_assoc in *.
        change (txt " =" ++ nl ++ t' ++ txt ";" ++ r) with ((txt " =" ++ nl) ++ t' ++ txt ";" ++ r). rewrite (lex_lit (txt " =" ++ nl) _ eq_refl).
        rewrite lex_nl in A2. rewrite A2. lxt. }
      rewrite <- !app_assoc. rewrite lex_spaces, (lex_lit (txt "export type ") _ eq_refl), lex_ident by (auto; fol). rewrite K2, lex_nl. lxt.
Qed.

Lemma join_nl {A : Type} (G : list jtok -> A -> Prop) (f : A -> str) l : Forall (fun a => rdl (f a) (fun ts => G ts a)) l ->
  rdl (join_with nl (map f l)) (fun ts => many G ts l).
Proof.
  induction 1 as [|a l (ts & H1 & H2) _ (tss & H3 & H4)].
  - exists []. split; [constructor|]. reflexivity.
  - exists (ts ++ tss). split; [now constructor|]. intros s. destruct l as [|b l].
    + inversion H3; subst. rewrite app_nil_r. apply H2.
    + change (map f (a :: b :: l)) with (f a :: map f (b :: l)). rewrite join_cons by discriminate. rewrite <- !app_assoc, H2, lex_nl, H4. reflexivity.
Qed.
Lemma namespace_reads {A : Type} (G : list jtok -> A -> Prop) ind name text a : is_ident name -> rdl text (fun ts => G ts a) ->
  rdl (namespace_str ind name text) (fun ts => gnamespace G ts name a).
Proof.
  intros Hn (ts & H1 & H2). exists ([w "export"; w "namespace"; JWord name; y "{"] ++ ts ++ [y "}"]). split; [split; [exact Hn|now exists ts]|]. intros s. unfold namespace_str. lxt.
Qed.
Lemma decl_reads ind d : wdecl d -> rdl (tdecl_str ind d) (fun ts => gdecl ts d).
Proof.
  intros (H1 & H2 & H3). unfold tdecl_str.
  destruct (join_nl gdef (tdef_str ind) (td_types d)) as (ts & A1 & A2).
  { eapply allP_Forall; [exact H2|]. intros a _. apply def_reads. }
  destruct (join_nl gfn (jfn_str (S ind)) (td_fns d)) as (tf & B1 & B2).
  { eapply allP_Forall; [exact H3|]. intros a _. apply fn_reads. }
  destruct (namespace_reads (many gfn) ind (td_name d) (join_with nl (map (jfn_str (S ind)) (td_fns d))) (td_fns d) H1) as (tn & N1 & N2).
  { now exists tf. }
  exists (ts ++ tn). split; [now exists ts, tn|]. intros s. destruct (td_types d) as [|a l].
  - inversion A1; subst. cbn [map app join_with]. apply N2.
  - rewrite join_snoc by discriminate. set (t := join_with nl (map (tdef_str ind) (a :: l))) in *. rewrite <- !app_assoc, A2, lex_nl, N2. reflexivity.
Qed.
Lemma join_app_nl (l l' : list str) s : l <> [] -> l' <> [] -> join_with nl (l ++ l') ++ s = join_with nl l ++ nl ++ join_with nl l' ++ s.
Proof.
  induction l as [|a l IH]; [congruence|]. intros _ H'. destruct l as [|b l].
  - cbn [app join_with]. destruct l'; [congruence|]. now rewrite <- !app_assoc.
  - change ((a :: b :: l) ++ l') with (a :: ((b :: l) ++ l')). rewrite (join_cons nl a ((b :: l) ++ l')), (join_cons nl a (b :: l)) by discriminate.
    rewrite <- !app_assoc. apply f_equal. apply f_equal. apply IH; [discriminate|exact H'].
Qed.
Lemma mod_reads : forall m ind, wmod m -> rdl (tmod_str ind m) (fun ts => gmod ts m).
Proof.
  fix IH 1. intros [children decls] ind [H1 H2]. cbn [tmod_str].
  assert (rdl (join_with nl (map (fun c => namespace_str ind (fst c) (tmod_str (S ind) (snd c))) children))
    (fun ts => many (fun ts c => gnamespace gmod ts (fst c) (snd c)) ts children)) as (ts & A1 & A2).
  { apply join_nl. clear H2 decls. induction children as [|[k m] children IHc]; [constructor|]. destruct H1 as [[K1 K2] K3]. cbn [fst snd] in K1, K2. constructor; [|now apply IHc].
    cbn [fst snd]. apply namespace_reads; [exact K1|]. apply IH. exact K2. }
  destruct (join_nl gdecl (tdecl_str ind) decls) as (td & B1 & B2).
  { eapply allP_Forall; [exact H2|]. intros a _. apply decl_reads. }
  exists (ts ++ td). split; [now constructor|]. intros s. set (f := fun c => namespace_str _ _ _) in *.
  destruct children as [|c children].
  - inversion A1; subst. apply B2.
  - destruct decls as [|d decls].
    + inversion B1; subst. cbn [map]. rewrite !app_nil_r. apply A2.
    + rewrite join_app_nl by discriminate. rewrite A2, lex_nl, B2. now rewrite <- app_assoc.
Qed.
