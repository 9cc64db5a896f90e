(** Well-formed trees of types and expressions, whose text reads as the tree. *)
From Verif Require Import BaseFacts IdentFacts.
From Verif Require Export TsGrammarFacts.
Local Open Scope string_scope.
Local Open Scope list_scope.
Local Open Scope N_scope.

(** The text is that of tokens with the property; [dot]: also before a point. *)
Definition rd (dot : bool) (t : str) (P : list jtok -> Prop) : Prop :=
  exists ts, P ts /\ forall s, follow dot s -> lx (t ++ s) = ts ++ lx s.
(** The same, whatever comes next. *)
Definition rdl (t : str) (P : list jtok -> Prop) : Prop :=
  exists ts, P ts /\ forall s, lx (t ++ s) = ts ++ lx s.
Lemma rd_impl d t (P Q : list jtok -> Prop) : (forall ts, P ts -> Q ts) -> rd d t P -> rd d t Q.
Proof. intros H (ts & H1 & H2). exists ts. auto. Qed.
Lemma rd_dot d t P : rd true t P -> rd d t P.
Proof. intros (ts & H1 & H2). exists ts. split; [exact H1|]. intros s Hs. apply H2. destruct d; [exact Hs|now apply follow_weaken]. Qed.
Lemma rdl_rd d t P : rdl t P -> rd d t P.
Proof. intros (ts & H1 & H2). exists ts. auto. Qed.

Section All.
Context {A : Type} (P : A -> Prop).
Fixpoint allP (l : list A) : Prop := match l with [] => True | a :: l' => P a /\ allP l' end.
Lemma allP_in l : allP l <-> forall a, In a l -> P a.
Proof.
  induction l as [|a l IH]; cbn; [split; [intros _ b []|auto]|]. rewrite IH. split.
  - intros [H1 H2] b [<-|Hb]; auto.
  - intros H. split; [apply H; now left|]. intros b Hb. apply H. now right.
Qed.
Lemma allP_app l l' : allP (l ++ l') <-> allP l /\ allP l'.
Proof. rewrite !allP_in. setoid_rewrite in_app_iff. firstorder. Qed.
End All.
Lemma allP_map {A B : Type} (P : B -> Prop) (f : A -> B) l : allP P (map f l) <-> allP (fun a => P (f a)) l.
Proof. induction l as [|a l IH]; [reflexivity|]. cbn. now rewrite IH. Qed.
Lemma allP_flat_map {A B : Type} (P : B -> Prop) (f : A -> list B) l : allP P (flat_map f l) <-> allP (fun a => allP P (f a)) l.
Proof. induction l as [|a l IH]; [reflexivity|]. cbn. now rewrite allP_app, IH. Qed.

(** *** Layout *)
Lemma lex_spaces n s : lx (indent2 n ++ s) = lx s.
Proof. induction n as [|n IH]; [reflexivity|]. unfold indent2 in *. cbn [repeat concat]. rewrite <- app_assoc. exact IH. Qed.
Lemma lex_nl s : lx (nl ++ s) = lx s.
Proof. reflexivity. Qed.
Ltac fol := solve [assumption | exact I | split; [reflexivity|let E := fresh in intros E; first [reflexivity | discriminate E]] | now apply follow_weaken].
Ltac hd := solve [assumption | repeat first [assumption | apply head_app] | right; cbn; tauto | left; reflexivity].
Ltac lx1 :=
  match goal with
  | |- context [lx ([] ++ ?s)] => rewrite (app_nil_l s)
  | |- context [lx (indent2 ?n ++ ?s)] => rewrite (lex_spaces n s)
  | |- context [lx (nl ++ ?s)] => rewrite (lex_nl s)
  | H : forall s, follow _ s -> lx (?t ++ s) = _ |- context [lx (?t ++ ?s)] => rewrite (H s) by fol
  | H : forall s, lx (?t ++ s) = _ |- context [lx (?t ++ ?s)] => rewrite (H s)
  | H : is_ident ?x |- context [lx (?x ++ ?s)] => rewrite (lex_ident x s H) by fol
  | H : plain ?x |- context [lx (quoted ?x ++ ?s)] => rewrite (lex_quoted x s H)
  | |- context [lx (?t ++ ?s)] => rewrite (lex_lit t s eq_refl)
  | |- context [lx (?t ++ ?s)] => rewrite (lex_keyword t s eq_refl) by hd
  end.
Ltac lxt := rewrite <- ?app_assoc; repeat lx1; rewrite <- ?app_assoc; try reflexivity.

(** *** Lists *)
Section Lists.
Context {A : Type} (G : list jtok -> A -> Prop) (f : A -> str).
Lemma rd_separated (sep : str) op l : (forall s, lx (sep ++ s) = op :: lx s) -> (forall s, follow false (sep ++ s)) ->
  Forall (fun a => rd false (f a) (fun ts => G ts a)) l -> rd false (join_with sep (map f l)) (fun ts => separated G op ts l).
Proof.
  intros Hs Hf. induction 1 as [|a l (ts & H1 & H2) _ (tss & H3 & H4)].
  - exists []. split; [constructor|reflexivity].
  - destruct l as [|b l].
    + exists ts. split; [now constructor|exact H2].
    + exists (ts ++ [op] ++ tss). split; [now constructor|]. intros s Hs'. cbn [map join_with].
      cbn [map join_with] in H4. set (more := match map f l with [] => f b | _ => _ end) in *. rewrite <- !app_assoc, H2, Hs, H4; [reflexivity|exact Hs'|apply Hf].
Qed.
Lemma rd_lines (before after : str) op l : (forall s, lx (before ++ s) = lx s) -> (forall s, lx (after ++ s) = op :: lx s) -> (forall s, follow false (after ++ s)) ->
  Forall (fun a => rd false (f a) (fun ts => G ts a)) l -> rdl (concat (map (fun a => before ++ f a ++ after) l)) (fun ts => separated G op ts l).
Proof.
  intros Hb Ha Hf. induction 1 as [|a l (ts & H1 & H2) _ (tss & H3 & H4)].
  - exists []. split; [constructor|reflexivity].
  - exists (ts ++ [op] ++ tss). split; [now constructor|]. intros s. cbn [map concat]. rewrite <- !app_assoc, Hb, H2, Ha, H4; [reflexivity|apply Hf].
Qed.
Lemma rd_listing (lines : bool) ind (l r : str) lt rt items : (forall s, lx (l ++ s) = lt :: lx s) -> (forall s, lx (r ++ s) = rt :: lx s) ->
  (forall s, follow false (r ++ s)) -> Forall (fun a => rd false (f a) (fun ts => G ts a)) items ->
  rdl (listing lines ind l r (map f items)) (fun ts => exists ts', commas G ts' items /\ ts = [lt] ++ ts' ++ [rt]).
Proof.
  intros Hl Hr Hf H. destruct lines; unfold listing.
  - destruct (rd_lines (indent2 (S ind)) (txt "," ++ nl) (y ",") items) as (ts & H1 & H2).
    + apply lex_spaces.
    + intros s. now lxt.
    + intros s. fol.
    + exact H.
    + exists ([lt] ++ ts ++ [rt]). split; [now exists ts|]. intros s. rewrite map_map. rewrite <- !app_assoc, Hl. lx1. rewrite H2. lx1. rewrite Hr. cbn [app]. now rewrite <- ?app_assoc.
  - destruct (rd_separated (txt ", ") (y ",") items) as (ts & H1 & H2).
    + intros s. now lxt.
    + intros s. fol.
    + exact H.
    + exists ([lt] ++ ts ++ [rt]). split; [now exists ts|]. intros s. rewrite <- !app_assoc, Hl, H2, Hr by apply Hf. cbn [app]. now rewrite <- ?app_assoc.
Qed.
Lemma rd_many (g : A -> str) l : Forall (fun a => rdl (g a) (fun ts => G ts a)) l -> rdl (concat (map g l)) (fun ts => many G ts l).
Proof.
  induction 1 as [|a l (ts & H1 & H2) _ (tss & H3 & H4)].
  - exists []. split; [constructor|reflexivity].
  - exists (ts ++ tss). split; [now constructor|]. intros s. cbn [map concat]. now rewrite <- !app_assoc, H2, H4.
Qed.
Lemma rd_chain d (sep : str) op l : l <> [] -> (forall s, lx (sep ++ s) = op :: lx s) -> (forall s, follow d (sep ++ s)) ->
  Forall (fun a => rd d (f a) (fun ts => G ts a)) l -> rd d (join_with sep (map f l)) (fun ts => chain G op ts l).
Proof.
  intros Hl Hs Hf H. induction H as [|a l (ts & H1 & H2) _ IH]; [now destruct Hl|]. destruct l as [|b l].
  - exists ts. split; [now constructor|exact H2].
  - destruct (IH ltac:(discriminate)) as (tss & H3 & H4). exists (ts ++ [op] ++ tss). split; [now constructor|]. intros s Hs'. cbn [map join_with].
    cbn [map join_with] in H4. set (more := match map f l with [] => f b | _ => _ end) in *. rewrite <- !app_assoc. rewrite H2 by apply Hf. rewrite Hs, H4 by exact Hs'. reflexivity.
Qed.
End Lists.
Lemma allP_Forall {A : Type} (P Q : A -> Prop) l : allP P l -> (forall a, In a l -> P a -> Q a) -> Forall Q l.
Proof. intros H K. rewrite allP_in in H. apply Forall_forall. auto. Qed.

(** *** Paths *)
Lemma dotted_cons x p : p <> [] -> dotted (x :: p) = [JWord x; y "."] ++ dotted p.
Proof. now destruct p. Qed.
Lemma join_cons (sep x : str) p : p <> [] -> join_with sep (x :: p) = x ++ sep ++ join_with sep p.
Proof. now destruct p. Qed.
Lemma path_start p : p <> [] -> Forall is_ident p -> word_start (join_with (txt ".") p).
Proof.
  intros Hp H. destruct p as [|x p]; [now destruct Hp|]. inversion H as [|? ? Hx _]; subst. apply ident_start in Hx.
  destruct p; [exact Hx|]. now apply word_start_app.
Qed.
Lemma word_head s : word_start s -> head_ok s.
Proof. destruct s; [intros []|]. now left. Qed.
Lemma lex_path p : p <> [] -> Forall is_ident p -> forall s, follow true s -> lx (join_with (txt ".") p ++ s) = dotted p ++ lx s.
Proof.
  induction p as [|x p IH]; intros Hp H s Hs; [now destruct Hp|]. inversion H as [|? ? Hx Hp']; subst. destruct p as [|x' p].
  - cbn [join_with dotted]. now rewrite lex_ident.
  - rewrite join_cons, dotted_cons by discriminate. set (p0 := x' :: p) in *. rewrite <- !app_assoc. rewrite lex_ident by fol.
    rewrite lex_dot; [|apply word_start_app, path_start; [discriminate|exact Hp']]. rewrite IH; [reflexivity|discriminate|exact Hp'|exact Hs].
Qed.

(** *** Types *)
Definition wpath (p : list str) : Prop := p = [txt "null"] \/ (p <> [] /\ Forall is_ident p).
Fixpoint wty (l : nat) (t : ttype) : Prop :=
  match t with
  | TtPath p => wpath p
  | TtArray t => wty 2 t
  | TtObj fs => allP (fun f => is_ident (fst f) /\ wty 1 (snd f)) fs
  | TtLit s => plain s
  | TtUnion a b => l = 1%nat /\ wty 1 a /\ wty 2 b
  | TtTuple ts => allP (wty 1) ts
  end.
Section TypeInd.
Context (P : ttype -> Prop) (Hpath : forall p, P (TtPath p)) (Harr : forall t, P t -> P (TtArray t))
  (Hobj : forall fs, Forall (fun f => P (snd f)) fs -> P (TtObj fs)) (Hlit : forall s, P (TtLit s))
  (Hun : forall a b, P a -> P b -> P (TtUnion a b)) (Htup : forall l, Forall P l -> P (TtTuple l)).
Fixpoint ttype_ind' (t : ttype) : P t :=
  match t with
  | TtPath p => Hpath p
  | TtArray t => Harr t (ttype_ind' t)
  | TtObj fs => Hobj fs ((fix go fs := match fs return Forall (fun f => P (snd f)) fs with [] => Forall_nil _ | f :: fs' => Forall_cons f (ttype_ind' (snd f)) (go fs') end) fs)
  | TtLit s => Hlit s
  | TtUnion a b => Hun a b (ttype_ind' a) (ttype_ind' b)
  | TtTuple l => Htup l ((fix go l := match l return Forall P l with [] => Forall_nil _ | t :: l' => Forall_cons t (ttype_ind' t) (go l') end) l)
  end.
End TypeInd.
Definition RTy (l : nat) (t : ttype) : Prop := head_ok (ttype_str t) /\ rd false (ttype_str t) (fun ts => gtype l ts t).
Lemma rty_alone l t : RTy 2 t -> l = 1%nat \/ l = 2%nat -> RTy l t.
Proof. intros [H1 H2] [-> | ->]; [|now split]. split; [exact H1|]. eapply rd_impl; [|exact H2]. intros. now apply g_ty_alone. Qed.
Lemma member_reads x t : is_ident x -> RTy 1 t -> rd false (x ++ txt ": " ++ ttype_str t) (fun ts => gmember ts (x, t)).
Proof. intros Hx [_ (ts & H1 & H2)]. exists ([JWord x; y ":"] ++ ts). split; [now constructor|]. intros s Hs. lxt. Qed.
Lemma member_reads' f : is_ident (fst f) -> RTy 1 (snd f) -> rd false (fst f ++ txt ": " ++ ttype_str (snd f)) (fun ts => gmember ts f).
Proof. destruct f as [x t]. apply member_reads. Qed.
Lemma type_reads t : forall l, l = 1%nat \/ l = 2%nat -> wty l t -> RTy l t.
Proof.
  induction t as [p|t IH|fs IH|s|a b IHa IHb|ts IH] using ttype_ind'; intros l Hl Hw.
  - apply rty_alone; [|exact Hl]. cbn [wty] in Hw. destruct Hw as [->|[H1 H2]].
    + split; [left; reflexivity|]. exists [w "null"]. split; [constructor|]. intros s Hs. cbn [ttype_str join_with].
      rewrite (lex_word false (txt "null") s); [reflexivity| |discriminate|exact Hs]. split; [discriminate|]. split; [now apply Forall_forall, forallb_forall|reflexivity].
    + split; [now apply word_head, path_start|]. exists (dotted p). split; [now constructor|]. intros s Hs. cbn [ttype_str]. apply lex_path; auto. now apply follow_weaken.
  - apply rty_alone; [|exact Hl]. cbn [wty] in Hw. destruct (IH 2%nat (or_intror eq_refl) Hw) as [H1 (ts & H2 & H3)]. split; [cbn [ttype_str]; now apply head_app|].
    exists (ts ++ [y "["; y "]"]). split; [now constructor|]. intros s Hs. cbn [ttype_str]. lxt.
  - apply rty_alone; [|exact Hl]. cbn [wty] in Hw. split; [right; cbn; tauto|].
    destruct (rd_separated gmember (fun f => fst f ++ txt ": " ++ ttype_str (snd f)) (txt "; ") (y ";") fs) as (ts & H1 & H2).
    + intros s. now lxt.
    + intros s. fol.
    + rewrite allP_in in Hw. rewrite Forall_forall in IH. apply Forall_forall. intros f Hf. destruct (Hw f Hf) as [K1 K2]. apply member_reads'; [exact K1|].
      apply (IH f Hf); auto.
    + exists ([y "{"] ++ ts ++ [y "}"]). split; [now constructor|]. intros s Hs. cbn [ttype_str]. set (t := join_with _ _) in *. lxt.
  - apply rty_alone; [|exact Hl]. cbn [wty] in Hw. split; [right; cbn; tauto|]. exists [JString s]. split; [now constructor|]. intros s' Hs. cbn [ttype_str]. lxt.
  - cbn [wty] in Hw. destruct Hw as (-> & Wa & Wb). destruct (IHa 1%nat (or_introl eq_refl) Wa) as [H1 (ts & H2 & H3)], (IHb 2%nat (or_intror eq_refl) Wb) as [_ (ts' & H4 & H5)].
    split; [cbn [ttype_str]; now apply head_app|]. exists (ts ++ [y "|"] ++ ts'). split; [now constructor|]. intros s Hs. cbn [ttype_str]. lxt.
  - apply rty_alone; [|exact Hl]. cbn [wty] in Hw. split; [right; cbn; tauto|].
    destruct (rd_separated (gtype 1) ttype_str (txt ", ") (y ",") ts) as (ts' & H1 & H2).
    + intros s. now lxt.
    + intros s. fol.
    + rewrite allP_in in Hw. rewrite Forall_forall in IH. apply Forall_forall. intros t Ht. apply (IH t Ht); auto.
    + exists ([y "["] ++ ts' ++ [y "]"]). split; [now constructor|]. intros s Hs. cbn [ttype_str]. set (t := join_with _ _) in *. lxt.
Qed.
