(** Lemmas about the validator: the reported errors are exactly the defects. *)
From Verif Require Import IdentFacts.
From Verif Require Export ValidatorFacts.

Section Defects.
Context (schemas : list (namespace * sschema)) (HL : loaded schemas).
Notation declared := (declared schemas).
Notation types := (all_types schemas).

Lemma in_cond {A} (b : bool) (x y : A) : In y (if b then [x] else []) <-> b = true /\ y = x.
Proof. destruct b; cbn; intuition congruence. Qed.

Lemma type_defects ns s t es : imports_ok s -> validate_type types ns s t = Some es ->
  forall e, In e es <-> type_defect schemas ns s t e.
Proof.
  intros Hs. revert es. induction t as [t IH| | |i n| | | | |]; intros es E e; cbn [validate_type] in E.
  1: { rewrite (IH es E e). split; intros H.
       - destruct H as [i n Hm Hl|i n ns' Hm Hl Hd]; [apply (no_such_import _ ns s _ i n)|apply (no_such_type _ ns s _ i n ns')]; auto; now constructor.
       - destruct H as [i n Hm Hl|i n ns' Hm Hl Hd]; inversion Hm; subst; [apply (no_such_import _ ns s _ i n)|apply (no_such_type _ ns s _ i n ns')]; auto. }
  3: { destruct (type_namespace ns s i) as [[ns'|]|] eqn:Et; [|discriminate|]; injection E as <-.
       - apply (type_namespace_iff ns s i ns' Hs) in Et as Hl. destruct (types_get (ns', n) types) as [[s2 d2]|] eqn:Eg.
         + split; [intros []|]. intros H. apply types_get_some in Eg as (ns2 & Hd2 & Hq2).
           destruct H as [i' n' Hm Hno|i' n' ns'' Hm Hl' Hd]; inversion Hm; subst; [now apply (Hno ns')|].
           apply (type_namespace_iff ns s i' ns'' Hs) in Hl'. assert (ns'' = ns') as -> by congruence. now apply (Hd ns2 s2 d2).
         + split.
           * intros [<-|[]]. apply (no_such_type _ ns s _ i n ns'); [constructor|exact Hl|]. intros ns2 s2 d2 Hd Hq.
             destruct (types_get_declared schemas (ns', n) ns2 s2 d2 Hd Hq) as (? & ? & Eg'). congruence.
           * intros H. destruct H as [i' n' Hm Hno|i' n' ns'' Hm Hl' Hd]; inversion Hm; subst; [now apply (Hno ns') in Hl|now left].
       - destruct i as [i|]; [|discriminate Et]. split.
         + intros [<-|[]]. apply (no_such_import _ ns s _ i n); [constructor|]. intros ns' Hl. apply (type_namespace_iff ns s _ ns' Hs) in Hl. congruence.
         + intros H. destruct H as [i' n' Hm Hno|i' n' ns'' Hm Hl' Hd]; inversion Hm; subst; [now left|].
           apply (type_namespace_iff ns s _ ns'' Hs) in Hl'. congruence. }
  all: injection E as <-; split; [intros []|]; intros H; destruct H as [i n Hm|i n ns' Hm]; inversion Hm.
Qed.

(** The errors of the fields [fs], after fields with names [names] and indices [idxs]. *)
Inductive fields_defect (ns : namespace) (s : sschema) (deleted : list N) (names : list ident) (idxs : list N) (fs : list sfield)
  : verr -> Prop :=
| fd_name before f after g : fs = before ++ f :: after -> In g (names ++ map sf_name before) -> same_ident (sf_name f) g ->
    fields_defect ns s deleted names idxs fs (VDupField (sf_name f))
| fd_index before f after : fs = before ++ f :: after -> In (sf_index f) (idxs ++ map sf_index before) ->
    fields_defect ns s deleted names idxs fs (VDupIndex (sf_index f))
| fd_deleted f : In f fs -> In (sf_index f) deleted -> fields_defect ns s deleted names idxs fs (VDeleted (sf_index f))
| fd_large f : In f fs -> 2 ^ 62 - 1 < sf_index f -> fields_defect ns s deleted names idxs fs (VTooLarge (sf_index f))
| fd_type f e : In f fs -> type_defect schemas ns s (sf_type f) e -> fields_defect ns s deleted names idxs fs e.
Lemma fields_defects ns s deleted fs : imports_ok s -> forall names idxs es idxs', NoDup idxs ->
  validate_fields types ns s deleted names idxs fs = Some (es, idxs') ->
  NoDup idxs' /\ (forall j, In j idxs' <-> In j idxs \/ In j (map sf_index fs)) /\
  forall e, In e es <-> fields_defect ns s deleted names idxs fs e.
Proof.
  intros Hs. induction fs as [|f fs IH]; intros names idxs es idxs' Hn E; cbn [validate_fields] in E.
  - injection E as <- <-. split; [exact Hn|]. split; [intros j; cbn; tauto|]. intros e. split; [intros []|].
    intros H. destruct H as [before f after g Ef|before f after Ef|f []|f []|f e []]; now apply app_cons_not_nil in Ef.
  - cbv zeta in E. destruct (validate_type types ns s (sf_type f)) as [tes|] eqn:Et; [|discriminate].
    set (dup := contains N.eqb (sf_index f) idxs) in *.
    destruct (validate_fields types ns s deleted (sf_name f :: names) (if dup then idxs else sf_index f :: idxs) fs)
      as [[es1 idxs1]|] eqn:E1; [|discriminate]. injection E as <- <-.
    assert (dup = true <-> In (sf_index f) idxs) as Hdup by apply contains_N.
    assert (forall j, In j (if dup then idxs else sf_index f :: idxs) <-> In j idxs \/ sf_index f = j) as Hidx.
    { intros j. destruct dup; cbn; [|tauto]. split; [tauto|]. intros [H|<-]; [exact H|now apply Hdup]. }
    apply IH in E1 as (N1 & J1 & D1).
    2: { destruct dup eqn:Ed; [exact Hn|]. constructor; [|exact Hn]. intros H. apply Hdup in H. discriminate. }
    split; [exact N1|]. split; [intros j; rewrite J1, Hidx; cbn [map In]; tauto|].
    intros e. rewrite !in_app_iff, !in_cond, (type_defects ns s _ tes Hs Et e), D1, Hdup, contains_N, contains_ident, N.ltb_lt. split.
    + intros [((y & Hy & Hq) & ->)|[(Hi & ->)|[(Hi & ->)|[(Hi & ->)|[Ht|H]]]]].
      * apply (fd_name _ _ _ _ _ _ [] f fs y); [reflexivity|now rewrite app_nil_r|exact Hq].
      * apply (fd_index _ _ _ _ _ _ [] f fs); [reflexivity|now rewrite app_nil_r].
      * apply fd_deleted; [now left|exact Hi].
      * apply fd_large; [now left|unfold max_index in Hi; lia].
      * apply (fd_type _ _ _ _ _ _ f); [now left|exact Ht].
      * destruct H as [before g after y Ef Hy Hq|before g after Ef Hg|g Hg Hd|g Hg Hm|g e Hg Ht].
        -- apply (fd_name _ _ _ _ _ _ (f :: before) g after y); [cbn; now rewrite Ef| |exact Hq].
           apply in_app_iff in Hy. apply in_app_iff. cbn [map In] in *. tauto.
        -- apply (fd_index _ _ _ _ _ _ (f :: before) g after); [cbn; now rewrite Ef|].
           apply in_app_iff in Hg. apply in_app_iff. rewrite Hidx in Hg. cbn [map In]. tauto.
        -- apply fd_deleted; [now right|exact Hd].
        -- apply fd_large; [now right|exact Hm].
        -- apply (fd_type _ _ _ _ _ _ g); [now right|exact Ht].
    + intros H. destruct H as [before g after y Ef Hy Hq|before g after Ef Hg|g [<-|Hg] Hd|g [<-|Hg] Hm|g e [<-|Hg] Ht].
      * destruct before as [|b before]; injection Ef as -> Ef.
        -- left. split; [|reflexivity]. exists y. split; [|exact Hq]. now rewrite app_nil_r in Hy.
        -- do 5 right. apply (fd_name _ _ _ _ _ _ before g after y); [exact Ef| |exact Hq].
           apply in_app_iff in Hy. apply in_app_iff. cbn [map In] in *. tauto.
      * destruct before as [|b before]; injection Ef as -> Ef.
        -- right. left. split; [|reflexivity]. now rewrite app_nil_r in Hg.
        -- do 5 right. apply (fd_index _ _ _ _ _ _ before g after); [exact Ef|].
           apply in_app_iff in Hg. apply in_app_iff. rewrite Hidx. cbn [map In] in Hg. tauto.
      * do 2 right. left. auto.
      * do 5 right. now apply fd_deleted.
      * do 3 right. left. split; [unfold max_index; lia|reflexivity].
      * do 5 right. now apply fd_large.
      * do 4 right. left. exact Ht.
      * do 5 right. now apply (fd_type _ _ _ _ _ _ g).
Qed.
Lemma in_gaps idxs deleted i : In i (gaps idxs deleted) <->
  i < N.of_nat (length idxs + length deleted) /\ ~ In i idxs /\ ~ In i deleted.
Proof.
  unfold gaps. rewrite filter_In, in_count, andb_true_iff, !negb_true_iff.
  rewrite (contains_false _ _ _ _ (contains_N i idxs)), (contains_false _ _ _ _ (contains_N i deleted)).
  split; [intros (H & A & B)|intros (H & A & B)]; repeat split; auto; lia.
Qed.
Lemma decl_defects ns s d es idxs : imports_ok s -> validate_fields types ns s (sd_deleted d) [] [] (sd_fields d) = Some (es, idxs) ->
  forall e, In e (es ++ map VGap (gaps idxs (sd_deleted d))) <-> decl_defect schemas ns s d e.
Proof.
  intros Hs E e. apply fields_defects in E as (Hn & Hi & He); [|exact Hs|constructor].
  assert (forall j, In j idxs <-> In j (field_indices d)) as Hi' by (intros j; rewrite Hi; cbn; tauto).
  rewrite in_app_iff, He, in_map_iff. split.
  - intros [H|(i & <- & H)].
    + destruct H as [before g after y Ef Hy Hq|before g after Ef Hg|g Hg Hd|g Hg Hm|g e Hg Ht].
      * cbn [app] in Hy. apply in_map_iff in Hy as (h & <- & Hh). now apply (repeated_field _ _ _ _ before g after h).
      * now apply (repeated_index _ _ _ _ before g after).
      * apply reserved_index; [now apply in_map|exact Hd].
      * apply large_index; [now apply in_map|exact Hm].
      * now apply (bad_type _ _ _ _ g).
    + apply in_gaps in H as (H1 & H2 & H3). apply (gap _ _ _ _ idxs i); auto. now rewrite <- Hi'.
  - intros H. destruct H as [before g after h Ef Hh Hq|before g after Ef Hg|i Hin Hd|i Hin Hm|g e Hg Ht|used i Hu Hj Hlt Hn1 Hn2].
    + left. apply (fd_name _ _ _ _ _ _ before g after (sf_name h)); [exact Ef| |exact Hq]. cbn [app]. now apply in_map.
    + left. now apply (fd_index _ _ _ _ _ _ before g after).
    + left. apply in_map_iff in Hin as (g & <- & Hg). now apply fd_deleted.
    + left. apply in_map_iff in Hin as (g & <- & Hg). now apply fd_large.
    + left. now apply (fd_type _ _ _ _ _ _ g).
    + right. exists i. split; [reflexivity|]. apply in_gaps. split; [|split; [now rewrite Hi'|exact Hn2]].
      assert (length used <= length idxs)%nat; [|lia]. apply NoDup_incl_length; [exact Hu|]. intros j Hjin. now apply Hi', Hj.
Qed.
Inductive decls_defect (ns : namespace) (s : sschema) (names : list ident) (ds : list sdecl) : verr -> Prop :=
| dd_name before d after y : ds = before ++ d :: after -> In y (names ++ map sd_name before) -> same_ident (sd_name d) y ->
    decls_defect ns s names ds (VDupDecl (sd_name d))
| dd_bad d e : In d ds -> decl_defect schemas ns s d e -> decls_defect ns s names ds e.
Lemma decls_defects ns s : imports_ok s -> forall ds names es, validate_decls types ns s names ds = Some es ->
  forall e, In e es <-> decls_defect ns s names ds e.
Proof.
  intros Hs. induction ds as [|d ds IH]; intros names es E e; cbn [validate_decls] in E.
  - injection E as <-. split; [intros []|]. intros H. destruct H as [before d after y Ef|d e []]. now apply app_cons_not_nil in Ef.
  - destruct (validate_fields types ns s (sd_deleted d) [] [] (sd_fields d)) as [[es1 idxs]|] eqn:E1; [|discriminate].
    destruct (validate_decls types ns s (sd_name d :: names) ds) as [es2|] eqn:E2; [|discriminate]. injection E as <-.
    rewrite (app_assoc es1), in_app_iff, in_app_iff, in_cond, (decl_defects ns s d es1 idxs Hs E1 e), (IH _ _ E2 e), contains_ident. split.
    + intros [((y & Hy & Hq) & ->)|[H|H]].
      * apply (dd_name _ _ _ _ [] d ds y); [reflexivity|now rewrite app_nil_r|exact Hq].
      * apply (dd_bad _ _ _ _ d); [now left|exact H].
      * destruct H as [before g after y Ef Hy Hq|g e Hg H].
        -- apply (dd_name _ _ _ _ (d :: before) g after y); [cbn; now rewrite Ef| |exact Hq].
           apply in_app_iff in Hy. apply in_app_iff. cbn [map In] in *. tauto.
        -- apply (dd_bad _ _ _ _ g); [now right|exact H].
    + intros H. destruct H as [before g after y Ef Hy Hq|g e [<-|Hg] H].
      * destruct before as [|b before]; injection Ef as -> Ef.
        -- left. split; [|reflexivity]. exists y. split; [|exact Hq]. now rewrite app_nil_r in Hy.
        -- do 2 right. apply (dd_name _ _ _ _ before g after y); [exact Ef| |exact Hq].
           apply in_app_iff in Hy. apply in_app_iff. cbn [map In] in *. tauto.
      * right. left. exact H.
      * do 2 right. now apply (dd_bad _ _ _ _ g).
Qed.
Lemma files_defects files es : (forall ns s, In (ns, s) files -> imports_ok s) -> validate_files types files = Some es ->
  forall e, In e es <-> exists ns s, In (ns, s) files /\ decls_defect ns s [] (ss_decls s) e.
Proof.
  revert es. induction files as [|[ns s] files IH]; intros es Hs E e; cbn [validate_files] in E.
  - injection E as <-. split; [intros []|]. intros (? & ? & [] & _).
  - destruct (validate_decls types ns s [] (ss_decls s)) as [es1|] eqn:E1; [|discriminate].
    destruct (validate_files types files) as [es2|] eqn:E2; [|discriminate]. injection E as <-.
    rewrite in_app_iff, (decls_defects ns s (Hs ns s (or_introl eq_refl)) _ _ _ E1 e), (IH es2); [|intros; apply (Hs ns0); now right|reflexivity].
    split.
    + intros [H|(ns' & s' & H1 & H2)]; [exists ns, s|exists ns', s']; (split; [|assumption]); [now left|now right].
    + intros (ns' & s' & [[= <- <-]|H1] & H2); [now left|]. right. eauto.
Qed.
Lemma validate_files_defects es : validate_files types schemas = Some es -> forall e, In e es <-> defect schemas e.
Proof.
  intros E e. destruct HL as (_ & L2 & _). rewrite (files_defects schemas es L2 E e). split.
  - intros (ns & s & H1 & H2). destruct H2 as [before d after y Ef Hy Hq|d e Hd H].
    + cbn [app] in Hy. apply in_map_iff in Hy as (d' & <- & Hd'). now apply (repeated_declaration _ ns s before d after d').
    + apply (bad_declaration _ ns s d); [now split|exact H].
  - intros H. destruct H as [ns s before d after d' H1 Ef Hd' Hq|ns s d e [H1 H2] H]; exists ns, s; (split; [exact H1|]).
    + apply (dd_name _ _ _ _ before d after (sd_name d')); [exact Ef| |exact Hq]. cbn [app]. now apply in_map.
    + now apply (dd_bad _ _ _ _ d).
Qed.
End Defects.
