(** Where the parts of a parsed schema are. *)
From Verif Require Import LocatedSpec LocatedFacts LocatedFacts2 ParserFacts ParserFacts2.

Lemma qadd_nil A es (r : qres A) a rest : qadd es r = QRet a [] rest -> es = [] /\ r = QRet a [] rest.
Proof. destruct r; cbn; try discriminate. intros [= <- H <-]. apply app_eq_nil in H as [-> ->]. auto. Qed.
#[local] Arguments span_range : simpl never.
Section At.
Context (u : unicode) (stem : str -> option str) (pal : palette) (tokens : list token).

Lemma type_is_at l : forall t r, qparse_type pal tokens l = QRet (Some t) [] r -> exists pre, l = pre ++ r /\ type_at t pre.
Proof.
  induction l as [|x l IH]; intros t r; cbn [qparse_type]; [discriminate|].
  assert (forall v, type_tokens v [tvar x] -> (forall t', v <> SyArray t') ->
    QRet (Some (XyLeaf (span_range tokens (x :: l) l) v)) [] l = QRet (Some t) [] r -> exists pre, x :: l = pre ++ r /\ type_at t pre) as Hleaf.
  { intros v Hv Hna [= <- <-]. exists [x]. split; [reflexivity|]. constructor; [exact Hna|exact Hv|apply (span_covers tokens [x] l); discriminate]. }
  destruct (tvar x) eqn:Ex.
  16: { unfold qbind. destruct (qparse_type pal tokens l) as [[inner|] es r0| |] eqn:Ep; try discriminate.
        intros H. apply qadd_nil in H as [-> H]. unfold qconsume0 in H. destruct (vis TkRightSquare r0) eqn:Ev; [|discriminate].
        injection H as <- <-. destruct (IH inner r0 eq_refl) as (pre & -> & Hp).
        apply vis_true in Ev as (y & r1 & -> & Hy & Ht). clear Ht. cbn [tl].
        exists (x :: pre ++ [y]). split; [cbn; now rewrite <- app_assoc|]. constructor; auto.
        replace (x :: pre ++ y :: r1) with ((x :: pre ++ [y]) ++ r1) by (cbn; now rewrite <- app_assoc). apply span_covers. discriminate. }
  all: try (apply Hleaf; [constructor|discriminate]).
  all: destruct (total tokens <? 2); [discriminate|];
       destruct ((total tokens - lenN (x :: l) <? total tokens - 2) && vis TkDot l) eqn:Ed;
       unfold qconsume_ident; rewrite ?Ex; try discriminate.
  - apply andb_true_iff in Ed as [_ Ed]. apply vis_true in Ed as (d & l1 & -> & Hd & Ht). cbn [tl] in *.
    destruct l1 as [|y l1]; [discriminate|]. destruct (tvar y) eqn:Ey; try discriminate.
    intros [= <- <-]. exists [x; d; y]. split; [reflexivity|]. constructor; [discriminate| |apply (span_covers tokens [x; d; y] l1); discriminate].
    rewrite !vars_cons, Ex, Hd, Ey. constructor.
  - apply Hleaf; [constructor|discriminate].
Qed.
Lemma field_is_at l f r : qparse_field pal tokens l = QRet (Some f) [] r -> exists pre, l = pre ++ r /\ field_at f pre.
Proof.
  unfold qparse_field. destruct (parse_comment l) as [c l1] eqn:Ec. apply parse_comment_sound in Ec as (p1 & El & Hc & _).
  destruct (parse_rule l1) as [k l2] eqn:Er. apply parse_rule_sound in Er as (p2 & -> & Hk).
  unfold qconsume_ident. destruct l2 as [|t l3]; [discriminate|]. destruct (tvar t) eqn:Et; try discriminate. cbv zeta.
  assert (forall ty l4 pt, annotation_at ty pt -> l3 = pt ++ l4 ->
    qconsume0 pal tokens TkEquals None l4 (fun l5 =>
      qconsume_integer pal tokens (txt "an index for the field") None l5 (fun index l6 => QRet (Some (mkXField (span_range tokens l l6) c k i ty index)) [] l6)) = QRet (Some f) [] r ->
    exists pre, l = pre ++ r /\ field_at f pre) as Hfin.
  { intros ty l4 pt Hty -> H. unfold qconsume0, qconsume_integer in H. destruct (vis TkEquals l4) eqn:Ev; [|discriminate].
    apply vis_true in Ev as (e & l5 & -> & He & _). cbn [tl] in H. destruct l5 as [|x l6]; [discriminate|].
    destruct (tvar x) eqn:Ex; try discriminate. injection H as <- <-.
    assert (l = (p1 ++ p2 ++ [t] ++ pt ++ [e; x]) ++ l6) as E by (rewrite El; repeat (rewrite <- !app_assoc; cbn [app]); reflexivity).
    exists (p1 ++ p2 ++ [t] ++ pt ++ [e; x]). split; [exact E|]. constructor; auto.
    - cbn [vars map]. now rewrite He, Ex.
    - rewrite E. apply span_covers. destruct p1, p2; discriminate. }
  destruct (vis TkColon l3) eqn:Ev.
  - apply vis_true in Ev as (y & l4 & -> & Hy & _). cbn [tl] in *. destruct l4 as [|z l4]; [discriminate|].
    unfold qbind. destruct (qparse_type pal tokens (z :: l4)) as [[ty|] es l5| |] eqn:Ep; try discriminate.
    intros H. apply qadd_nil in H as [-> H]. apply type_is_at in Ep as (pt & Ept & Htt).
    apply (Hfin ty l5 (y :: pt)); auto.
    + now constructor.
    + cbn. now rewrite <- Ept.
  - intros H. apply (Hfin _ l3 [] ltac:(constructor) eq_refl H).
Qed.
Lemma fields_are_at : 2 <= total tokens -> forall fuel l fs r, qparse_fields pal tokens fuel l = QRet fs [] r ->
  exists pre, l = pre ++ r /\ many_at field_at fs pre.
Proof.
  intros Ht. induction fuel as [|fuel IH]; intros l fs r; destruct l as [|x l];
    try (cbn [qparse_fields]; intros [= <- <-]; exists []; split; [reflexivity|constructor]);
    cbn [qparse_fields]; destruct (vis TkDeleted (x :: l) || vis TkRightCurly (x :: l));
    try (intros [= <- <-]; exists []; split; [reflexivity|constructor]); try discriminate.
  pose proof (parse_field_quiet (total tokens) (x :: l) Ht) as (Hq & _). pose proof (field_forget pal tokens (x :: l)) as Hf.
  destruct (qparse_field pal tokens (x :: l)) as [[f|] es r0| |] eqn:Ef; cbn [qbind]; try discriminate.
  - intros H. apply qadd_nil in H as [-> H]. destruct (qparse_fields pal tokens fuel r0) as [fs' es' r'| |] eqn:Er; cbn [qbind] in H; try discriminate.
    injection H as <- -> ->. apply field_is_at in Ef as (p1 & H1 & Hfa). apply IH in Er as (p2 & -> & Hfs).
    exists (p1 ++ p2). split; [rewrite <- app_assoc; exact H1|]. now constructor.
  - intros [= <- -> <-]. exfalso. cbn in Hf. apply (Hq r0). now symmetry.
Qed.
Lemma decl_is_at l d r : lenN l <= total tokens -> qparse_decl pal tokens l = QRet (Some d) [] r ->
  exists pre, l = pre ++ r /\ decl_at d pre.
Proof.
  intros Hlen. unfold qparse_decl. destruct (parse_comment l) as [c l1] eqn:Ec.
  apply parse_comment_sound in Ec as (p1 & El & Hc & _). destruct l1 as [|t l2]; [discriminate|].
  assert (forall kind what, tvar t = kind_token kind ->
    qconsume_ident pal tokens (txt "a name for the " ++ what) None l2 (fun name l3 =>
          qconsume0 pal tokens TkLeftCurly None l3 (fun l4 =>
            qbind (qparse_fields pal tokens (length l4) l4) (fun fields es l5 =>
              let '(deleted, es', l6) :=
                if vis TkDeleted l5 then qparse_deleted pal tokens [] (tl l5) else ([], [], l5) in
              qadd (es ++ es') (qconsume0 pal tokens TkRightCurly None l6 (fun l7 =>
                QRet (Some (mkXDecl (span_range tokens l l7) c kind name fields deleted)) [] l7))))) = QRet (Some d) [] r ->
    exists pre, l = pre ++ r /\ decl_at d pre) as Hgo.
  { intros kind what Hk. unfold qconsume_ident. destruct l2 as [|x l3]; [discriminate|]. destruct (tvar x) eqn:Ex; try discriminate.
    unfold qconsume0 at 1. destruct (vis TkLeftCurly l3) eqn:Ev; [|discriminate].
    apply vis_true in Ev as (y & l4 & -> & Hy & _). cbn [tl].
    assert (2 <= total tokens) as Ht2 by (rewrite El in Hlen; unfold lenN in Hlen; rewrite app_length in Hlen; cbn [length] in Hlen; lia).
    destruct (qparse_fields pal tokens (length l4) l4) as [fs es l5| |] eqn:Ef; cbn [qbind]; try discriminate.
    destruct (if vis TkDeleted l5 then qparse_deleted pal tokens [] (tl l5) else ([], [], l5)) as [[del es'] l6] eqn:Ed.
    intros H. apply qadd_nil in H as [He H]. apply app_eq_nil in He as [-> ->].
    apply fields_are_at in Ef as (p2 & -> & Hfs); [|exact Ht2].
    assert (exists p3, l5 = p3 ++ l6 /\ deleted_tokens del (vars p3)) as (p3 & -> & Hdel).
    { destruct (vis TkDeleted l5) eqn:Ev.
      - apply vis_true in Ev as (z & l5' & -> & Hz & _). cbn [tl] in Ed. pose proof (deleted_forget pal tokens l5' []) as Hdf.
        rewrite Ed in Hdf. apply parse_deleted_sound in Hdf as (pre & ns & -> & Hv & Hn & _ & Hp & Hs); [|constructor].
        exists (z :: pre). split; [reflexivity|]. rewrite vars_cons, Hz, Hv. constructor; auto. now rewrite app_nil_r in Hp.
      - injection Ed as <- <-. exists []. split; [reflexivity|constructor]. }
    unfold qconsume0 in H. destruct (vis TkRightCurly l6) eqn:Ev; [|discriminate].
    apply vis_true in Ev as (z & l7 & -> & Hz & _). cbn [tl] in H. injection H as <- <-.
    assert (l = (p1 ++ [t; x; y] ++ p2 ++ p3 ++ [z]) ++ l7) as E by (rewrite El; repeat (rewrite <- !app_assoc; cbn [app]); reflexivity).
    exists (p1 ++ [t; x; y] ++ p2 ++ p3 ++ [z]). split; [exact E|]. constructor; auto.
    - cbn [vars map]. now rewrite Hk, Ex, Hy.
    - rewrite E. apply span_covers. destruct p1; discriminate. }
  destruct (tvar t) eqn:Et; try discriminate; apply Hgo; reflexivity.
Qed.
Lemma decls_are_at : forall fuel l ds r, lenN l <= total tokens -> qparse_decls pal tokens fuel l = QRet ds [] r ->
  r = [] /\ many_at decl_at ds l.
Proof.
  induction fuel as [|fuel IH]; intros l ds r Hlen; destruct l as [|x l]; cbn [qparse_decls];
    try (intros [= <- <-]; split; [reflexivity|constructor]); try discriminate.
  pose proof (decl_forget pal tokens (x :: l)) as Hf.
  destruct (parse_decl_cases (total tokens) (x :: l) Hlen ltac:(discriminate)) as [[_ Ed]|(_ & d & es & r0 & Ed & Hd & Hr & _)]; rewrite Ed in Hf;
    destruct (qparse_decl pal tokens (x :: l)) as [[xd|] es1 r1| |] eqn:Eq; try discriminate; cbn [forget option_map] in Hf; injection Hf as <- <- <-; cbn [qbind].
  - intros H. apply qadd_nil in H as [-> H]. destruct (qparse_decls pal tokens fuel r1) as [ds' es' r'| |] eqn:Er; cbn [qbind] in H; try discriminate.
    injection H as <- -> ->. apply decl_is_at in Eq as (p1 & H1 & Hda); [|exact Hlen].
    apply IH in Er as (-> & Hds); [|unfold lenN in *; lia]. split; [reflexivity|]. rewrite H1. now constructor.
  - intros [= <- -> <-]. exfalso. now apply Hd.
Qed.
Lemma import_is_at l i r : qparse_import u stem pal tokens l = QRet (Some i) [] r ->
  exists pre, l = pre ++ r /\ import_at u stem i pre.
Proof.
  unfold qparse_import, qconsume0 at 1. destruct (vis TkImport l) eqn:Ev; [|discriminate].
  apply vis_true in Ev as (t & l1 & -> & Ht & _). cbn [tl]. unfold qconsume_path. destruct l1 as [|x l2]; [discriminate|].
  destruct (tvar x) eqn:Ex; try discriminate. destruct (vis TkAs l2) eqn:Ev.
  - unfold qconsume0. rewrite Ev. apply vis_true in Ev as (y & l3 & -> & Hy & _). cbn [tl]. unfold qconsume_ident.
    destruct l3 as [|z l4]; [discriminate|]. destruct (tvar z) eqn:Ez; try discriminate. intros [= <- <-].
    exists [t; x; y; z]. split; [reflexivity|]. constructor; [|apply (span_covers tokens [t; x; y; z] l4); discriminate].
    cbn [vars map]. rewrite Ht, Ex, Hy, Ez. constructor.
  - destruct (stem p) eqn:Es; [|discriminate]. intros [= <- <-]. exists [t; x]. split; [reflexivity|].
    constructor; [|apply (span_covers tokens [t; x] l2); discriminate]. cbn [vars map]. rewrite Ht, Ex. now constructor.
Qed.
Definition xlt (a b : ident * ximport) : Prop := ident_cmp (fst a) (fst b) = Lt.
Lemma imports_are_at : forall fuel m l m' r, StronglySorted xlt m ->
  qparse_imports u stem pal tokens fuel m l = QRet m' [] r ->
  exists pre listed, l = pre ++ r /\ many_at (import_at u stem) listed pre /\
    ForallOrdPairs (fun a b => ident_cmp (fst a) (fst b) <> Eq) listed /\
    Forall (fun e => Forall (fun e' : ident * ximport => ident_cmp (fst e) (fst e') <> Eq) m) listed /\
    Permutation (listed ++ m) m' /\ StronglySorted xlt m'.
Proof.
  induction fuel as [|fuel IH]; intros m l m' r Hs; cbn [qparse_imports]; destruct (vis TkImport l) eqn:Ev; try discriminate;
    try (intros [= <- <-]; exists [], []; repeat split; auto; constructor).
  pose proof (import_forget u stem pal tokens l) as Hf.
  destruct (parse_import_cases u stem l Ev) as (o & es & r0 & Ei & _ & _ & Hn). rewrite Ei in Hf.
  destruct (qparse_import u stem pal tokens l) as [i es1 r1| |] eqn:Eq; try discriminate. cbn [forget] in Hf. injection Hf as <- <- <-. cbn [qbind].
  destruct i as [[name import]|].
  - destruct (map_insert name import m) as [m2 dup] eqn:Em. intros H. apply qadd_nil in H as [He H].
    apply app_eq_nil in He as [-> He]. destruct dup; [discriminate|].
    destruct (map_insert_spec _ _ _ _ _ Hs Em) as (Hp & Hs2 & Hfr).
    apply import_is_at in Eq as (p1 & -> & Hi). apply IH in H as (p2 & listed & -> & Hm & Hd & Hdm & Hp2 & Hs'); [|exact Hs2].
    exists (p1 ++ p2), ((name, import) :: listed). rewrite <- app_assoc. split; [reflexivity|]. split; [now constructor|].
    split; [|split].
    + constructor; [|exact Hd]. eapply Forall_impl; [|exact Hdm]. intros e He'. cbv beta in He'.
      rewrite Forall_forall in He'. specialize (He' (name, import) (Permutation_in _ Hp (or_introl eq_refl))).
      cbn [fst] in *. intros E. apply He'. rewrite cmp_sym, E. reflexivity.
    + constructor; [exact Hfr|]. eapply Forall_impl; [|exact Hdm]. intros e He'. cbv beta in *.
      apply (Permutation_Forall (Permutation_sym Hp)) in He'. now inversion He'.
    + split; [|exact Hs']. cbn [app]. rewrite Permutation_middle. now rewrite Hp.
  - intros H. apply qadd_nil in H as [-> H]. exfalso. now apply Hn.
Qed.
Lemma map_pairs (l : list (ident * ximport)) : ForallOrdPairs (fun a b => ident_cmp (fst a) (fst b) <> Eq) l ->
  ForallOrdPairs (fun a b => ident_cmp (fst a) (fst b) <> Eq) (map bare_named l).
Proof.
  induction 1 as [|x l H1 H2 IH]; [constructor|]. constructor; [|exact IH]. apply Forall_map. eapply Forall_impl; [|exact H1]. now intros [].
Qed.
Lemma map_sorted (l : list (ident * ximport)) : StronglySorted xlt l ->
  StronglySorted (fun a b => ident_cmp (fst a) (fst b) = Lt) (map bare_named l).
Proof.
  induction 1 as [|x l H2 IH H1]; [constructor|]. constructor; [exact IH|]. apply Forall_map. eapply Forall_impl; [|exact H1]. now intros [].
Qed.
Theorem parse_is_at s : parse_loc u stem pal tokens = XParseOk s -> schema_at u stem s tokens.
Proof.
  unfold parse_loc, qparse_schema. destruct (parse_schema_comment tokens) as [c l1] eqn:Ec.
  apply schema_comment_iff in Ec as (ct & E & Hc).
  destruct (qparse_imports u stem pal tokens (length l1) [] l1) as [imports es l2| |] eqn:Ei; cbn [qbind]; try discriminate.
  destruct (qparse_decls pal tokens (length l2) l2) as [decls es' l3| |] eqn:Ed; cbn [qbind qadd]; try discriminate.
  destruct (es ++ es') eqn:Ees; destruct l3; try discriminate. intros [= <-]. apply app_eq_nil in Ees as [-> ->].
  apply imports_are_at in Ei as (it & listed & -> & Hm & Hd & _ & Hp & Hs); [|constructor]. rewrite app_nil_r in Hp.
  apply decls_are_at in Ed as [_ Hds]; [|rewrite E; unfold total, lenN; rewrite !app_length; lia].
  rewrite E. econstructor; [exact Hc|exact Hm|exact Hp| |exact Hds]. split; [|split].
  - now apply map_pairs.
  - now apply Permutation_map.
  - now apply map_sorted.
Qed.
End At.
