(** The validator with messages reports exactly the faults, each at its place, and agrees with the one without messages. *)
From Verif Require Import IdentFacts.
From Verif Require Export ReportingSpec ValidatorFacts DefectFacts.

Section Faults.
Context (u : unicode) (pal : palette) (schemas : list (namespace * sschema)).
Notation types := (all_types schemas).
Notation type_fault := (type_fault pal schemas).
Notation decl_fault := (decl_fault pal schemas).
Notation code := (code_str pal).

Lemma at_range_reported f r m e : at_range u pal (xl_path f) (xl_contents f) r m = Some e <-> reported u pal f r m e.
Proof.
  unfold at_range, reported. destruct (listing u pal (xl_contents f) r) as [text|]; split.
  - intros [= <-]. eauto.
  - intros (? & [= <-] & ->). reflexivity.
  - discriminate.
  - intros (? & [=] & _).
Qed.
Lemma in_push b f r k m es : push_if u pal b f r k m = Some es -> forall e, In e (map snd es) <-> b = true /\ reported u pal f r m e.
Proof.
  unfold push_if. intros E e. destruct b.
  - destruct (at_range u pal (xl_path f) (xl_contents f) r m) as [e'|] eqn:Ea; [|discriminate]. injection E as <-. apply at_range_reported in Ea. cbn.
    split; [intros [<-|[]]; auto|]. intros [_ H]. left. apply at_range_reported in H. apply at_range_reported in Ea. congruence.
  - injection E as <-. cbn. intuition discriminate.
Qed.
Lemma both_some a b es : both a b = Some es -> exists x y, a = Some x /\ b = Some y /\ es = x ++ y.
Proof. unfold both. destruct a as [x|]; [|discriminate]. destruct b as [y|]; [|discriminate]. intros [= <-]. eauto. Qed.
Definition told (f : xfile) (P : srange -> str -> Prop) (e : error) : Prop := exists r m, P r m /\ reported u pal f r m e.

Lemma xtype_faults ns f t : imports_ok (bare_schema (xl_schema f)) -> forall es, xvalidate_type u pal types ns f t = Some es ->
  forall e, In e (map snd es) <-> told f (type_fault ns (bare_schema (xl_schema f)) t) e.
Proof.
  intros Hs. set (s := bare_schema (xl_schema f)) in *. induction t as [r t IH|r t]; intros es E e; cbn [xvalidate_type] in E.
  - rewrite (IH es E e). split; intros (r' & m & H & Hr); exists r', m; (split; [|exact Hr]).
    + destruct H as [r0 i n Hm Hl|r0 i n ns' Hm Hl Hd|r0 n Hm Hd]; [eapply fault_import|eapply fault_imported|eapply fault_local]; eauto; constructor; eassumption.
    + destruct H as [r0 i n Hm Hl|r0 i n ns' Hm Hl Hd|r0 n Hm Hd]; inversion Hm; subst; [eapply fault_import|eapply fault_imported|eapply fault_local]; eauto.
  - assert (forall ns0 n, types_get (ns0, n) types = None <-> forall ns2 s2 d2, declared schemas ns2 s2 d2 -> ~ same_q (ns2, sd_name d2) (ns0, n)) as Hget.
    { intros ns0 n. split.
      - intros Eg ns2 s2 d2 Hd Hq. destruct (types_get_declared schemas (ns0, n) ns2 s2 d2 Hd Hq) as (? & ? & Eg'). congruence.
      - intros H. destruct (types_get (ns0, n) types) as [[s2 d2]|] eqn:Eg; [|reflexivity]. apply types_get_some in Eg as (ns2 & Hd2 & Hq2). destruct (H _ _ _ Hd2 Hq2). }
    destruct t as [t| | |i n| | | | |].
    4: { fold s in E. destruct (type_namespace ns s i) as [[ns'|]|] eqn:Et; [|discriminate|].
      - apply (type_namespace_iff ns s i ns' Hs) in Et as Hl. rewrite (in_push _ _ _ _ _ _ E e).
        assert (match types_get (ns', n) types with Some _ => false | None => true end = true <-> types_get (ns', n) types = None) as Hb by (destruct (types_get _ _); split; congruence).
        rewrite Hb, Hget. split.
        + intros [Hn Hr]. eexists r, _. split; [|exact Hr]. destruct i as [i|].
          * eapply fault_imported; [constructor|exact Hl|exact Hn].
          * inversion Hl; subst. eapply fault_local; [constructor|exact Hn].
        + intros (r' & m & H & Hr). destruct H as [r0 i' n' Hm Hno|r0 i' n' ns'' Hm Hl' Hd|r0 n' Hm Hd]; inversion Hm; subst.
          * now apply Hno in Hl.
          * apply (type_namespace_iff ns s (Some i') ns'' Hs) in Hl'. assert (ns'' = ns') as -> by congruence. now split.
          * inversion Hl; subst. now split.
      - rewrite (in_push _ _ _ _ _ _ E e). destruct i as [i|]; [|discriminate]. split.
        + intros [_ Hr]. eexists r, _. split; [|exact Hr]. eapply fault_import; [constructor|]. intros ns' Hl. apply (type_namespace_iff ns s _ ns' Hs) in Hl. congruence.
        + intros (r' & m & H & Hr). destruct H as [r0 i' n' Hm Hno|r0 i' n' ns'' Hm Hl' Hd|r0 n' Hm Hd]; inversion Hm; subst; [now split|].
          apply (type_namespace_iff ns s _ ns'' Hs) in Hl'. congruence. }
    all: injection E as <-; split; [intros []|]; intros (r' & m & H & _); destruct H as [r0 i n Hm|r0 i n ns' Hm|r0 n Hm]; inversion Hm.
Qed.

(** The faults of the fields [fs], after fields with names [names] and indices [idxs]. *)
Inductive xfields_fault (ns : namespace) (s : sschema) (deleted : list N) (names : list ident) (idxs : list N) (fs : list xfield)
  : srange -> str -> Prop :=
| xf_fault_name before f after g : fs = before ++ f :: after -> In g (names ++ map xf_name before) -> same_ident (xf_name f) g ->
    xfields_fault ns s deleted names idxs fs (xf_range f) (txt "A field named " ++ code (original (xf_name f)) ++ txt " already exists in this declaration.")
| xf_fault_index before f after : fs = before ++ f :: after -> In (xf_index f) (idxs ++ map xf_index before) ->
    xfields_fault ns s deleted names idxs fs (xf_range f) (txt "A field with index " ++ code (print_number (xf_index f)) ++ txt " already exists in this declaration.")
| xf_fault_deleted f : In f fs -> In (xf_index f) deleted ->
    xfields_fault ns s deleted names idxs fs (xf_range f) (txt "Field index " ++ code (print_number (xf_index f)) ++ txt " is marked as deleted in this declaration.")
| xf_fault_large f : In f fs -> 2 ^ 62 - 1 < xf_index f ->
    xfields_fault ns s deleted names idxs fs (xf_range f) (txt "Field index " ++ code (print_number (xf_index f)) ++ txt " is too large. The maximum field index is " ++ code (print_number (2 ^ 62 - 1)) ++ txt ".")
| xf_fault_type f r m : In f fs -> type_fault ns s (xf_type f) r m -> xfields_fault ns s deleted names idxs fs r m.
Lemma told_or f P Q e : told f (fun r m => P r m \/ Q r m) e <-> told f P e \/ told f Q e.
Proof.
  split.
  - intros (r & m & [H|H] & Hr); [left|right]; exists r, m; auto.
  - intros [(r & m & H & Hr)|(r & m & H & Hr)]; exists r, m; auto.
Qed.
Lemma told_iff f (P Q : srange -> str -> Prop) e : (forall r m, P r m <-> Q r m) -> told f P e <-> told f Q e.
Proof. intros H. split; intros (r & m & Hp & Hr); exists r, m; (split; [now apply H|exact Hr]). Qed.
Lemma told_one f (b : Prop) r m e : told f (fun r' m' => b /\ r' = r /\ m' = m) e <-> b /\ reported u pal f r m e.
Proof. split; [intros (r' & m' & (Hb & -> & ->) & Hr); auto|]. intros [Hb Hr]. exists r, m. auto. Qed.
Lemma xfields_faults ns f deleted fs : imports_ok (bare_schema (xl_schema f)) -> forall names idxs es idxs', NoDup idxs ->
  xvalidate_fields u pal types ns f deleted names idxs fs = Some (es, idxs') ->
  NoDup idxs' /\ (forall j, In j idxs' <-> In j idxs \/ In j (map xf_index fs)) /\
  forall e, In e (map snd es) <-> told f (xfields_fault ns (bare_schema (xl_schema f)) deleted names idxs fs) e.
Proof.
  intros Hs. set (s := bare_schema (xl_schema f)) in *. induction fs as [|d fs IH]; intros names idxs es idxs' Hn E; cbn [xvalidate_fields] in E.
  - injection E as <- <-. split; [exact Hn|]. split; [intros j; cbn; tauto|]. intros e. split; [intros []|].
    intros (r & m & H & _). destruct H as [before g after y Ef|before g after Ef|g []|g []|g ? ? []]; now apply app_cons_not_nil in Ef.
  - cbv zeta in E. set (dup := contains N.eqb (xf_index d) idxs) in *.
    destruct (both _ _) as [es1|] eqn:Eb; [|discriminate].
    destruct (xvalidate_fields u pal types ns f deleted (xf_name d :: names) (if dup then idxs else xf_index d :: idxs) fs)
      as [[es2 idxs1]|] eqn:E1; [|discriminate]. injection E as <- <-.
    apply both_some in Eb as (a1 & b1 & A1 & Eb & ->). apply both_some in Eb as (a2 & b2 & A2 & Eb & ->).
    apply both_some in Eb as (a3 & b3 & A3 & Eb & ->). apply both_some in Eb as (a4 & a5 & A4 & A5 & ->).
    assert (dup = true <-> In (xf_index d) idxs) as Hdup by apply contains_N.
    assert (forall j, In j (if dup then idxs else xf_index d :: idxs) <-> In j idxs \/ xf_index d = j) as Hidx.
    { intros j. destruct dup; cbn; [|tauto]. split; [tauto|]. intros [H|<-]; [exact H|now apply Hdup]. }
    apply IH in E1 as (N1 & J1 & D1).
    2: { destruct dup eqn:Ed; [exact Hn|]. constructor; [|exact Hn]. intros H. apply Hdup in H. discriminate. }
    split; [exact N1|]. split; [intros j; rewrite J1, Hidx; cbn [map In]; tauto|].
    intros e. rewrite !map_app, !in_app_iff, (in_push _ _ _ _ _ _ A1), (in_push _ _ _ _ _ _ A2), (in_push _ _ _ _ _ _ A3), (in_push _ _ _ _ _ _ A4).
    rewrite (xtype_faults ns f _ Hs _ A5 e), D1, <- !told_one, <- !told_or. fold s. apply told_iff. intros r m.
    rewrite Hdup, contains_N, contains_ident, N.ltb_lt. split.
    + intros [[((y & Hy & Hq) & -> & ->)|[(Hi & -> & ->)|[(Hi & -> & ->)|[(Hi & -> & ->)|Ht]]]]|H].
      * apply (xf_fault_name _ _ _ _ _ _ [] d fs y); [reflexivity|now rewrite app_nil_r|exact Hq].
      * apply (xf_fault_index _ _ _ _ _ _ [] d fs); [reflexivity|now rewrite app_nil_r].
      * apply xf_fault_deleted; [now left|exact Hi].
      * change max_index with (2 ^ 62 - 1). apply xf_fault_large; [now left|unfold max_index in Hi; lia].
      * apply (xf_fault_type _ _ _ _ _ _ d); [now left|exact Ht].
      * destruct H as [before g after y Ef Hy Hq|before g after Ef Hg|g Hg Hd|g Hg Hm|g r m Hg Ht].
        -- apply (xf_fault_name _ _ _ _ _ _ (d :: before) g after y); [cbn; now rewrite Ef| |exact Hq].
           apply in_app_iff in Hy. apply in_app_iff. cbn [map In] in *. tauto.
        -- apply (xf_fault_index _ _ _ _ _ _ (d :: before) g after); [cbn; now rewrite Ef|].
           apply in_app_iff in Hg. apply in_app_iff. rewrite Hidx in Hg. cbn [map In]. tauto.
        -- apply xf_fault_deleted; [now right|exact Hd].
        -- apply xf_fault_large; [now right|exact Hm].
        -- apply (xf_fault_type _ _ _ _ _ _ g); [now right|exact Ht].
    + intros H. destruct H as [before g after y Ef Hy Hq|before g after Ef Hg|g [<-|Hg] Hd|g [<-|Hg] Hm|g r m [<-|Hg] Ht].
      * destruct before as [|b before]; injection Ef as -> Ef.
        -- do 2 left. split; [|now split]. exists y. split; [|exact Hq]. now rewrite app_nil_r in Hy.
        -- right. apply (xf_fault_name _ _ _ _ _ _ before g after y); [exact Ef| |exact Hq].
           apply in_app_iff in Hy. apply in_app_iff. cbn [map In] in *. tauto.
      * destruct before as [|b before]; injection Ef as -> Ef.
        -- left. right. left. split; [|now split]. now rewrite app_nil_r in Hg.
        -- right. apply (xf_fault_index _ _ _ _ _ _ before g after); [exact Ef|].
           apply in_app_iff in Hg. apply in_app_iff. rewrite Hidx. cbn [map In] in Hg. tauto.
      * left. do 2 right. left. auto.
      * right. now apply xf_fault_deleted.
      * left. do 3 right. left. split; [unfold max_index; lia|now split].
      * right. now apply xf_fault_large.
      * left. do 4 right. exact Ht.
      * right. now apply (xf_fault_type _ _ _ _ _ _ g).
Qed.
Definition gap_message (i : N) : str := txt "Field index gap found. Unused index " ++ code (print_number i) ++ txt " is not marked as deleted.".
Lemma xgaps_told f r is : forall es, xgaps u pal f r is = Some es ->
  forall e, In e (map snd es) <-> exists i, In i is /\ reported u pal f r (gap_message i) e.
Proof.
  induction is as [|i is IH]; intros es E e; cbn [xgaps] in E.
  - injection E as <-. cbn. split; [intros []|]. intros (? & [] & _).
  - apply both_some in E as (a & b & A & B & ->). rewrite map_app, in_app_iff, (in_push _ _ _ _ _ _ A), (IH b B e). split.
    + intros [[_ H]|(j & Hj & H)]; [exists i|exists j]; (split; [|exact H]); [now left|now right].
    + intros (j & [<-|Hj] & H); [left; now split|right; eauto].
Qed.
Lemma xdecl_faults ns f d es idxs es' : imports_ok (bare_schema (xl_schema f)) ->
  xvalidate_fields u pal types ns f (xd_deleted d) [] [] (xd_fields d) = Some (es, idxs) ->
  xgaps u pal f (xd_range d) (gaps idxs (xd_deleted d)) = Some es' ->
  forall e, In e (map snd (es ++ es')) <-> told f (decl_fault ns (bare_schema (xl_schema f)) d) e.
Proof.
  intros Hs E Eg e. apply xfields_faults in E as (Hn & Hi & He); [|exact Hs|constructor].
  assert (forall j, In j idxs <-> In j (used_indices d)) as Hi' by (intros j; rewrite Hi; cbn; tauto).
  rewrite map_app, in_app_iff, He, (xgaps_told _ _ _ _ Eg). split.
  - intros [(r & m & H & Hr)|(i & H & Hr)].
    + exists r, m. split; [|exact Hr]. destruct H as [before g after y Ef Hy Hq|before g after Ef Hg|g Hg Hd|g Hg Hm|g r m Hg Ht].
      * cbn [app] in Hy. apply in_map_iff in Hy as (h & <- & Hh). now apply (fault_name _ _ _ _ _ before g after h).
      * now apply (fault_index _ _ _ _ _ before g after).
      * now apply fault_deleted.
      * now apply fault_large.
      * now apply (fault_type _ _ _ _ _ g).
    + exists (xd_range d), (gap_message i). split; [|exact Hr]. apply in_gaps in H as (H1 & H2 & H3). apply (fault_gap _ _ _ _ _ idxs i); auto. now rewrite <- Hi'.
  - intros (r & m & H & Hr). destruct H as [before g after h Ef Hh Hq|before g after Ef Hg|g Hin Hd|g Hin Hm|g r m Hg Ht|used i Hu Hj Hlt Hn1 Hn2].
    + left. exists (xf_range g). eexists. split; [|exact Hr]. apply (xf_fault_name _ _ _ _ _ _ before g after (xf_name h)); [exact Ef| |exact Hq]. cbn [app]. now apply in_map.
    + left. exists (xf_range g). eexists. split; [|exact Hr]. now apply (xf_fault_index _ _ _ _ _ _ before g after).
    + left. exists (xf_range g). eexists. split; [|exact Hr]. now apply xf_fault_deleted.
    + left. exists (xf_range g). eexists. split; [|exact Hr]. now apply xf_fault_large.
    + left. exists r, m. split; [|exact Hr]. now apply (xf_fault_type _ _ _ _ _ _ g).
    + right. exists i. split; [|exact Hr]. apply in_gaps. split; [|split; [now rewrite Hi'|exact Hn2]].
      assert (length used <= length idxs)%nat; [|lia]. apply NoDup_incl_length; [exact Hu|]. intros j Hjin. now apply Hi', Hj.
Qed.
Inductive xdecls_fault (ns : namespace) (s : sschema) (names : list ident) (ds : list xdecl) : srange -> str -> Prop :=
| xd_fault_name before d after y : ds = before ++ d :: after -> In y (names ++ map xd_name before) -> same_ident (xd_name d) y ->
    xdecls_fault ns s names ds (xd_range d) (txt "A declaration named " ++ code (original (xd_name d)) ++ txt " already exists in this file.")
| xd_fault_bad d r m : In d ds -> decl_fault ns s d r m -> xdecls_fault ns s names ds r m.
Lemma xdecls_faults ns f : imports_ok (bare_schema (xl_schema f)) -> forall ds names es, xvalidate_decls u pal types ns f names ds = Some es ->
  forall e, In e (map snd es) <-> told f (xdecls_fault ns (bare_schema (xl_schema f)) names ds) e.
Proof.
  intros Hs. set (s := bare_schema (xl_schema f)) in *. induction ds as [|d ds IH]; intros names es E e; cbn [xvalidate_decls] in E.
  - injection E as <-. split; [intros []|]. intros (r & m & H & _). destruct H as [before d after y Ef|d ? ? []]. now apply app_cons_not_nil in Ef.
  - destruct (xvalidate_fields u pal types ns f (xd_deleted d) [] [] (xd_fields d)) as [[es1 idxs]|] eqn:E1; [|discriminate].
    apply both_some in E as (a1 & b1 & A1 & E & ->). apply both_some in E as (a2 & b2 & A2 & E & ->). injection A2 as <-.
    apply both_some in E as (a3 & a4 & A3 & A4 & ->).
    rewrite (app_assoc es1), !map_app, in_app_iff, in_app_iff, (in_push _ _ _ _ _ _ A1), <- (map_app snd es1 a3), (xdecl_faults ns f d es1 idxs a3 Hs E1 A3 e), (IH _ _ A4 e).
    rewrite <- told_one, <- !told_or. fold s. apply told_iff. intros r m. rewrite contains_ident. split.
    + intros [((y & Hy & Hq) & -> & ->)|[H|H]].
      * apply (xd_fault_name _ _ _ _ [] d ds y); [reflexivity|now rewrite app_nil_r|exact Hq].
      * apply (xd_fault_bad _ _ _ _ d); [now left|exact H].
      * destruct H as [before g after y Ef Hy Hq|g r m Hg H].
        -- apply (xd_fault_name _ _ _ _ (d :: before) g after y); [cbn; now rewrite Ef| |exact Hq].
           apply in_app_iff in Hy. apply in_app_iff. cbn [map In] in *. tauto.
        -- apply (xd_fault_bad _ _ _ _ g); [now right|exact H].
    + intros H. destruct H as [before g after y Ef Hy Hq|g r m [<-|Hg] H].
      * destruct before as [|b before]; injection Ef as -> Ef.
        -- left. split; [|now split]. exists y. split; [|exact Hq]. now rewrite app_nil_r in Hy.
        -- do 2 right. apply (xd_fault_name _ _ _ _ before g after y); [exact Ef| |exact Hq].
           apply in_app_iff in Hy. apply in_app_iff. cbn [map In] in *. tauto.
      * right. left. exact H.
      * do 2 right. now apply (xd_fault_bad _ _ _ _ g).
Qed.
Lemma xfiles_faults files : (forall ns f, In (ns, f) files -> imports_ok (bare_schema (xl_schema f))) -> forall es, xvalidate_files u pal types files = Some es ->
  forall e, In e (map snd es) <-> exists ns f, In (ns, f) files /\ told f (file_fault pal schemas ns f) e.
Proof.
  induction files as [|[ns f] files IH]; intros Hs es E e; cbn [xvalidate_files] in E.
  - injection E as <-. split; [intros []|]. intros (? & ? & [] & _).
  - apply both_some in E as (a & b & A & B & ->).
    assert (told f (xdecls_fault ns (bare_schema (xl_schema f)) [] (xs_decls (xl_schema f))) e <-> told f (file_fault pal schemas ns f) e) as Hf.
    { apply told_iff. intros r m. split; intros H.
      - destruct H as [before d after y Ef Hy Hq|d r m Hd H]; [|now apply fault_in with d].
        cbn [app] in Hy. apply in_map_iff in Hy as (d' & <- & Hd'). now apply (fault_decl _ _ _ _ before d after d').
      - destruct H as [before d after d' Ef Hd' Hq|d r m Hd H]; [|now apply xd_fault_bad with d].
        apply (xd_fault_name _ _ _ _ before d after (xd_name d')); [exact Ef| |exact Hq]. cbn [app]. now apply in_map. }
    rewrite map_app, in_app_iff, (xdecls_faults ns f (Hs ns f (or_introl eq_refl)) _ _ _ A e), Hf, (IH (fun ns0 f0 H => Hs ns0 f0 (or_intror H)) b B e). split.
    + intros [H|(ns' & s' & H1 & H2)]; [exists ns, f|exists ns', s']; (split; [|assumption]); [now left|now right].
    + intros (ns' & s' & [[= <- <-]|H1] & H2); [now left|]. right. eauto.
Qed.

(** ** The validator without messages *)
Definition listable (f : xfile) (r : srange) : Prop := exists text, listing u pal (xl_contents f) r = Some text.
Fixpoint type_listable (f : xfile) (t : xty) : Prop :=
  match t with
  | XyArray _ t' => type_listable f t'
  | XyLeaf r (SyCustom _ _) => listable f r
  | XyLeaf _ (SyArray _) => False
  | XyLeaf _ _ => True
  end.
Definition field_listable (f : xfile) (d : xfield) : Prop := listable f (xf_range d) /\ type_listable f (xf_type d).
Definition decl_listable (f : xfile) (d : xdecl) : Prop := listable f (xd_range d) /\ Forall (field_listable f) (xd_fields d).
Definition file_listable (f : xfile) : Prop := Forall (decl_listable f) (xs_decls (xl_schema f)).
Definition kinds (o : option found) : option (list verr) := option_map (map fst) o.
Lemma kinds_both a b : kinds (both a b) = match kinds a, kinds b with Some x, Some y => Some (x ++ y) | _, _ => None end.
Proof. destruct a as [x|], b as [y|]; try reflexivity. cbn. now rewrite map_app. Qed.
Lemma kinds_push b f r k m : listable f r -> kinds (push_if u pal b f r k m) = Some (if b then [k] else []).
Proof. intros [text H]. unfold push_if, at_range. rewrite H. now destruct b. Qed.
Lemma type_kinds ns f t : type_listable f t -> kinds (xvalidate_type u pal types ns f t) = validate_type types ns (bare_schema (xl_schema f)) (bare_type t).
Proof.
  induction t as [r t IH|r t]; cbn [type_listable]; intros H; cbn [xvalidate_type bare_type validate_type]; [now apply IH|].
  destruct t as [t| | |i n| | | | |]; try reflexivity; [contradiction|]. cbn [validate_type].
  destruct (type_namespace ns (bare_schema (xl_schema f)) i) as [[ns'|]|]; [|reflexivity|]; rewrite kinds_push by exact H; [|reflexivity].
  now destruct (types_get (ns', n) types).
Qed.
Lemma fields_kinds ns f deleted fs : Forall (field_listable f) fs -> forall names idxs,
  option_map (fun p => (map fst (fst p), snd p)) (xvalidate_fields u pal types ns f deleted names idxs fs) =
  validate_fields types ns (bare_schema (xl_schema f)) deleted names idxs (map bare_field fs).
Proof.
  induction 1 as [|d fs [Hr Ht] _ IH]; intros names idxs; [reflexivity|]. cbn [xvalidate_fields map validate_fields bare_field sf_name sf_index sf_type].
  cbv zeta. rewrite <- IH. rewrite <- (type_kinds ns f (xf_type d) Ht).
  match goal with |- context [both ?a ?b] => remember (both a b) as B eqn:EB end.
  assert (kinds B = match kinds (xvalidate_type u pal types ns f (xf_type d)) with
    | Some es => Some ((if contains ident_eqb (xf_name d) names then [VDupField (xf_name d)] else []) ++
                (if contains N.eqb (xf_index d) idxs then [VDupIndex (xf_index d)] else []) ++
                (if contains N.eqb (xf_index d) deleted then [VDeleted (xf_index d)] else []) ++
                (if max_index <? xf_index d then [VTooLarge (xf_index d)] else []) ++ es) | None => None end) as HB.
  { rewrite EB, !kinds_both, !kinds_push by exact Hr. now destruct (kinds _). }
  clear EB. destruct (kinds (xvalidate_type u pal types ns f (xf_type d))) as [es|]; destruct B as [B|]; try discriminate HB; [|reflexivity].
  cbn in HB. injection HB as HB.
  destruct (xvalidate_fields u pal types ns f deleted (xf_name d :: names) _ fs) as [[es' idxs']|]; [|reflexivity].
  cbn [option_map fst snd]. rewrite map_app, HB, <- !app_assoc. reflexivity.
Qed.
Lemma gaps_kinds f r is : listable f r -> kinds (xgaps u pal f r is) = Some (map VGap is).
Proof. intros H. induction is as [|i is IH]; [reflexivity|]. cbn [xgaps]. now rewrite kinds_both, kinds_push, IH. Qed.
Lemma decls_kinds ns f ds : Forall (decl_listable f) ds -> forall names,
  kinds (xvalidate_decls u pal types ns f names ds) = validate_decls types ns (bare_schema (xl_schema f)) names (map bare_decl ds).
Proof.
  induction 1 as [|d ds [Hr Hf] _ IH]; intros names; [reflexivity|]. cbn [xvalidate_decls map validate_decls bare_decl sd_name sd_fields sd_deleted].
  rewrite <- (fields_kinds ns f (xd_deleted d) (xd_fields d) Hf), <- IH.
  destruct (xvalidate_fields u pal types ns f (xd_deleted d) [] [] (xd_fields d)) as [[es idxs]|]; [|reflexivity].
  cbn [option_map fst snd]. rewrite !kinds_both, kinds_push, gaps_kinds by exact Hr. cbn [kinds option_map]. fold (kinds (xvalidate_decls u pal types ns f (xd_name d :: names) ds)).
  now destruct (kinds _).
Qed.
Lemma files_kinds files : Forall (fun e => file_listable (snd e)) files -> kinds (xvalidate_files u pal types files) = validate_files types (schemas_of (bare_files files)).
Proof.
  induction 1 as [|[ns f] files Hf _ IH]; [reflexivity|]. cbn [xvalidate_files bare_files schemas_of map validate_files fst snd lf_schema bare_file].
  rewrite kinds_both, (decls_kinds ns f _ Hf), IH. reflexivity.
Qed.
End Faults.

Definition forget_valid (r : xvres) : vres :=
  match r with XVOk => VOk | XVErr es => VErr (map fst es) | XVPanic => VPanic | XVLoop => VLoop end.
Theorem xvalidate_forget u pal l : Forall (fun e => file_listable u pal (snd e)) l ->
  forget_valid (xvalidate u pal l) = validate (schemas_of (bare_files l)).
Proof.
  intros H. unfold xvalidate, validate. rewrite <- (files_kinds u pal (schemas_of (bare_files l)) l H).
  destruct (xvalidate_files u pal (all_types (schemas_of (bare_files l))) l) as [[|e es]|]; [|reflexivity|reflexivity]. cbn [kinds option_map map].
  destruct (check_all _ _ _) as [st| |]; [|reflexivity|reflexivity]. destruct (c_errors st) as [|e es]; [reflexivity|]. cbn [forget_valid map fst]. f_equal. f_equal. rewrite map_map. cbn [fst]. apply map_id.
Qed.
