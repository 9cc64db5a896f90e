(** Where the errors of the parser are, and what they say. *)
From Verif Require Import LocatedSpec LocatedFacts ParserFacts ParserFacts2.

Lemma span_covers tokens pre r : pre <> [] -> covers (span_range tokens (pre ++ r) r) pre.
Proof.
  intros H. destruct pre as [|t pre]; [congruence|]. split; [discriminate|]. unfold span_range. cbn [app].
  assert ((length (t :: pre ++ r) =? length r)%nat = false) as -> by (apply Nat.eqb_neq; cbn [length]; rewrite app_length; lia).
  cbn [r_start r_end map hd]. split; [reflexivity|]. f_equal. f_equal.
  replace (length (t :: pre ++ r) - length r)%nat with (length (t :: pre)) by (cbn [length]; rewrite app_length; lia).
  change (t :: pre ++ r) with ((t :: pre) ++ r). rewrite firstn_app, firstn_all, Nat.sub_diag, firstn_O, app_nil_r. reflexivity.
Qed.
Lemma suffix_slice (r l : list token) : rest_of r l -> exists pre, l = pre ++ r.
Proof. intros [pre H]. now exists pre. Qed.

Section Errors.
Context (u : unicode) (stem : str -> option str) (pal : palette) (tokens : list token) (Hne : tokens <> []).
Notation ok := (Forall (complaint u stem pal tokens)).
Notation within l := (rest_of l tokens).

Lemma unexpected_ok l what v : within l -> expects pal what v -> complaint u stem pal tokens (unexpected pal tokens l what).
Proof.
  intros [before H] Hw. unfold unexpected. destruct tokens as [|t0 ts0] eqn:Et; [congruence|]. destruct l as [|t l].
  - rewrite app_nil_r in H. destruct (exists_last Hne) as (b & t & Eb). rewrite Eb. unfold range_at, eof. rewrite map_app. cbn [map]. rewrite last_last.
    eapply complaint_end; [reflexivity|exact Hw].
  - eapply complaint_token; [exact H|exact Hw].
Qed.
Definition fine {A} (r : qres A) : Prop := match r with QRet _ es _ => ok es | _ => True end.
Lemma fine_ret A (a : A) r : fine (QRet a [] r).
Proof. constructor. Qed.
Lemma fine_one A (a : A) l what v r : within l -> expects pal what v -> fine (QRet a [unexpected pal tokens l what] r).
Proof. intros. constructor; [now apply unexpected_ok with v|constructor]. Qed.
Lemma fine_add A es (r : qres A) : ok es -> fine r -> fine (qadd es r).
Proof. intros H1 H2. destruct r; [|exact I..]. apply Forall_app. split; assumption. Qed.
Lemma fine_consume0 A v (err : A) l k : within l -> In v [TkEquals; TkLeftCurly; TkRightCurly; TkRightSquare] ->
  (vis v l = true -> fine (k (tl l))) -> fine (qconsume0 pal tokens v err l k).
Proof.
  intros Hl Hv Hk. unfold qconsume0. destruct (vis v l); [now apply Hk|]. apply (fine_one _ _ _ _ v); [exact Hl|now constructor].
Qed.
Lemma fine_ident A what (err : A) l k : within l -> (forall n, expects pal what (TkIdentifier n)) ->
  (forall n, within (tl l) -> fine (k n (tl l))) -> fine (qconsume_ident pal tokens what err l k).
Proof.
  intros Hl Hw Hk. unfold qconsume_ident. destruct l as [|t l]; [apply (fine_one _ _ _ _ (TkIdentifier (mkIdent [] []))); auto|].
  destruct (tvar t); try (apply (fine_one _ _ _ _ (TkIdentifier (mkIdent [] []))); auto; fail). apply Hk.
  cbn [tl]. apply (suffix_trans _ (t :: l)); [|exact Hl]. apply suffix_cons, suffix_refl.
Qed.
Lemma within_tl l : within l -> within (tl l).
Proof. intros H. apply (suffix_trans _ l); [apply suffix_tl|exact H]. Qed.
Lemma forget_ret A B (f : A -> B) q a es r : q = QRet a es r -> forget f q = PRet (f a) (map xp_kind es) r.
Proof. now intros ->. Qed.

Lemma type_fine l : within l -> fine (qparse_type pal tokens l).
Proof.
  induction l as [|t l IH]; intros Hl; cbn [qparse_type].
  - apply (fine_one _ _ _ _ TkBool); [exact Hl|constructor; cbn; tauto].
  - pose proof (within_tl _ Hl) as Hl'. cbn [tl] in Hl'.
    assert (forall n, expects pal (txt "a type") (TkIdentifier n)) as He1 by (intros n; constructor; cbn; tauto).
    assert (forall n, expects pal (txt "the name of an import") (TkIdentifier n)) as He2 by (intros n; constructor; cbn; tauto).
    destruct (tvar t); try apply fine_ret; try (
      destruct (total tokens <? 2); [exact I|]; destruct ((total tokens - lenN (t :: l) <? total tokens - 2) && vis TkDot l);
      [ apply fine_ident; [exact Hl|exact He2|]; intros ? _; apply fine_ident; [now apply within_tl|exact He1|]; intros ? ?; apply fine_ret
      | apply fine_ident; [exact Hl|exact He1|]; intros ? _; apply fine_ret ]).
    specialize (IH Hl'). pose proof (type_forget pal tokens l) as Hf.
    destruct (qparse_type pal tokens l) as [[ty|] es r| |]; cbn [qbind]; try exact I; [|exact IH].
    cbn [forget] in Hf. symmetry in Hf. apply parse_type_suffix in Hf.
    apply fine_add; [exact IH|]. apply fine_consume0; [now apply (suffix_trans _ l)|cbn; tauto|]. intros _. apply fine_ret.
Qed.
Lemma field_fine l : within l -> fine (qparse_field pal tokens l).
Proof.
  intros Hl. unfold qparse_field. destruct (parse_comment l) as [comment l1] eqn:Ec. apply parse_comment_suffix in Ec.
  destruct (parse_rule l1) as [k l2] eqn:Er. apply parse_rule_suffix in Er.
  assert (within l2) as Hl2 by (apply (suffix_trans _ l1); [exact Er|now apply (suffix_trans _ l)]).
  apply fine_ident; [exact Hl2|intros n; constructor; cbn; tauto|]. intros name Hl3. cbv zeta.
  assert (forall ty l4, within l4 -> fine (qconsume0 pal tokens TkEquals None l4 (fun l5 => qconsume_integer pal tokens (txt "an index for the field") None l5 (fun index l6 =>
          QRet (Some (mkXField (span_range tokens l l6) comment k name ty index)) [] l6)))) as Hfin.
  { intros ty l4 Hl4. apply fine_consume0; [exact Hl4|cbn; tauto|]. intros _. unfold qconsume_integer. apply within_tl in Hl4.
    destruct (tl l4) as [|t l5]; [apply (fine_one _ _ _ _ (TkInteger 0)); [exact Hl4|constructor]|].
    destruct (tvar t); try (apply (fine_one _ _ _ _ (TkInteger 0)); [exact Hl4|constructor]). apply fine_ret. }
  destruct (vis TkColon (tl l2)) eqn:Ev; [|now apply Hfin].
  apply within_tl in Hl3. destruct (tl (tl l2)) as [|t l4] eqn:E4.
  - apply (fine_one _ _ _ _ TkBool); [exact Hl3|constructor; cbn; tauto].
  - pose proof (type_fine _ Hl3) as Hf. pose proof (type_forget pal tokens (t :: l4)) as Hg.
    destruct (qparse_type pal tokens (t :: l4)) as [[ty|] es r| |]; cbn [qbind]; try exact I; [|exact Hf].
    cbn [forget] in Hg. symmetry in Hg. apply parse_type_suffix in Hg.
    apply fine_add; [exact Hf|]. apply Hfin. now apply (suffix_trans _ (t :: l4)).
Qed.
Lemma fields_fine fuel : forall l, within l -> fine (qparse_fields pal tokens fuel l).
Proof.
  induction fuel as [|fuel IH]; intros l Hl; destruct l as [|t l]; cbn [qparse_fields]; try apply fine_ret;
    destruct (vis TkDeleted (t :: l) || vis TkRightCurly (t :: l)); try apply fine_ret; [exact I|].
  pose proof (field_fine _ Hl) as Hf. pose proof (field_forget pal tokens (t :: l)) as Hg.
  destruct (qparse_field pal tokens (t :: l)) as [[f|] es r| |]; cbn [qbind]; try exact I; [|exact Hf].
  cbn [forget] in Hg. symmetry in Hg. apply parse_field_suffix in Hg. apply fine_add; [exact Hf|].
  assert (within r) as Hr by now apply (suffix_trans _ (t :: l)). specialize (IH r Hr).
  destruct (qparse_fields pal tokens fuel r); cbn [qbind]; try exact I. exact IH.
Qed.
(** The indices after [deleted]: [done] are the ones already read. *)
Lemma set_insert_dup n s : snd (set_insert n s) = true -> In n s.
Proof.
  intros H. destruct (in_dec N.eq_dec n s) as [Hin|Hin]; [exact Hin|]. apply set_insert_fresh in Hin. congruence.
Qed.
Lemma set_insert_in n s m : In m (fst (set_insert n s)) -> m = n \/ In m s.
Proof.
  induction s as [|x s IH]; cbn [set_insert]; [cbn; intuition|].
  destruct (n <? x); [cbn; intuition|]. destruct (n =? x); [cbn; intuition|].
  destruct (set_insert n s) as [s' dup]. cbn [fst] in *. intros [->|H]; [right; now left|]. apply IH in H. cbn. tauto.
Qed.
Lemma deleted_fine l : forall acc done, within (done ++ l) -> Forall (fun x => exists m, tvar x = TkInteger m) done ->
  (forall n, In n acc -> exists t, In t done /\ tvar t = TkInteger n) ->
  let '(_, es, _) := qparse_deleted pal tokens acc l in ok es.
Proof.
  induction l as [|t l IH]; intros acc done Hl Hd Ha; cbn [qparse_deleted]; [constructor|].
  destruct (tvar t) eqn:Et; try constructor.
  pose proof (set_insert_dup n acc) as Hdup. pose proof (set_insert_in n acc) as Hin.
  destruct (set_insert n acc) as [acc' dup]. cbn [fst snd] in *.
  specialize (IH acc' (done ++ [t])). rewrite <- app_assoc in IH. cbn [app] in IH. specialize (IH Hl).
  destruct (qparse_deleted pal tokens acc' l) as [[s es] r]. apply Forall_app. split.
  - destruct dup; [|constructor]. constructor; [|constructor]. destruct (Ha n (Hdup eq_refl)) as (t0 & H0 & Ht0).
    apply in_split in H0 as (d1 & d2 & ->). destruct Hl as [before Hb]. rewrite <- app_assoc in Hb. cbn [app] in Hb. cbn [token_text].
    unfold range_at. eapply (complaint_deleted _ _ _ _ (before ++ d1) t0 d2 t n l); auto.
    + rewrite Hb, <- !app_assoc. reflexivity.
    + apply Forall_app in Hd as [_ Hd]. now inversion Hd.
  - apply IH.
    + apply Forall_app. split; [exact Hd|]. constructor; [eauto|constructor].
    + intros m Hm. apply Hin in Hm as [->|Hm]; [exists t; split; [apply in_app_iff; right; now left|exact Et]|].
      destruct (Ha m Hm) as (t0 & H0 & Ht0). exists t0. split; [apply in_app_iff; now left|exact Ht0].
Qed.
Lemma decl_fine l : within l -> fine (qparse_decl pal tokens l).
Proof.
  intros Hl. unfold qparse_decl. destruct (parse_comment l) as [comment l1] eqn:Ec. apply parse_comment_suffix in Ec.
  assert (within l1) as Hl1 by now apply (suffix_trans _ l).
  destruct l1 as [|t l2]; [exact I|]. pose proof (within_tl _ Hl1) as Hl2. cbn [tl] in Hl2.
  assert (forall kind what, (forall n, expects pal (txt "a name for the " ++ what) (TkIdentifier n)) -> fine (qconsume_ident pal tokens (txt "a name for the " ++ what) None l2 (fun name l3 =>
          qconsume0 pal tokens TkLeftCurly None l3 (fun l4 =>
            qbind (qparse_fields pal tokens (length l4) l4) (fun fields es l5 =>
              let '(deleted, es', l6) :=
                if vis TkDeleted l5 then qparse_deleted pal tokens [] (tl l5) else ([], [], l5) in
              qadd (es ++ es') (qconsume0 pal tokens TkRightCurly None l6 (fun l7 =>
                QRet (Some (mkXDecl (span_range tokens l l7) comment kind name fields deleted)) [] l7))))))) as H.
  { intros kind what He. apply fine_ident; [exact Hl2|exact He|]. intros name Hl3. apply fine_consume0; [exact Hl3|cbn; tauto|]. intros _.
    apply within_tl in Hl3. set (l4 := tl (tl l2)) in *. clearbody l4.
    pose proof (fields_fine (length l4) l4 Hl3) as Hf. pose proof (fields_forget pal tokens (length l4) l4) as Hg.
    destruct (qparse_fields pal tokens (length l4) l4) as [fields es l5| |]; cbn [qbind]; try exact I.
    cbn [forget] in Hg. symmetry in Hg. apply parse_fields_suffix in Hg.
    assert (within l5) as Hl5 by now apply (suffix_trans _ l4).
    destruct (vis TkDeleted l5).
    - pose proof (deleted_fine (tl l5) [] []) as Hd. pose proof (deleted_forget pal tokens (tl l5) []) as Hdf.
      destruct (qparse_deleted pal tokens [] (tl l5)) as [[s es'] l6]. apply parse_deleted_suffix in Hdf.
      apply within_tl in Hl5. apply fine_add.
      + apply Forall_app. split; [exact Hf|]. apply Hd; [exact Hl5|constructor|intros n []].
      + apply fine_consume0; [now apply (suffix_trans _ (tl l5))|cbn; tauto|]. intros _. apply fine_ret.
    - apply fine_add; [now rewrite app_nil_r|]. apply fine_consume0; [exact Hl5|cbn; tauto|]. intros _. apply fine_ret. }
  destruct (tvar t); try (apply (fine_one _ _ _ _ TkStruct); [exact Hl1|constructor; now left]);
    apply H; intros n; constructor; cbn; tauto.
Qed.
Lemma decls_fine fuel : forall l, within l -> fine (qparse_decls pal tokens fuel l).
Proof.
  induction fuel as [|fuel IH]; intros l Hl; destruct l as [|t l]; cbn [qparse_decls]; try apply fine_ret; [exact I|].
  pose proof (decl_fine _ Hl) as Hf. pose proof (decl_forget pal tokens (t :: l)) as Hg.
  destruct (qparse_decl pal tokens (t :: l)) as [[d|] es r| |]; cbn [qbind]; try exact I; [|exact Hf].
  cbn [forget] in Hg. symmetry in Hg. apply parse_decl_suffix in Hg. apply fine_add; [exact Hf|].
  assert (within r) as Hr by now apply (suffix_trans _ (t :: l)). specialize (IH r Hr).
  destruct (qparse_decls pal tokens fuel r); cbn [qbind]; try exact I. exact IH.
Qed.

(** Imports: [done] are the tokens of the ones already read. *)
Definition read_import (done : list token) (e : ident * ximport) : Prop :=
  exists a its b, done = a ++ its ++ b /\ import_named u stem (fst e) its.
Lemma import_fine l : within l -> vis TkImport l = true ->
  exists i es r its, qparse_import u stem pal tokens l = QRet i es r /\ ok es /\ l = its ++ r /\
    match i with Some (n, i) => import_named u stem n its /\ covers (xi_range i) its | None => True end.
Proof.
  intros Hl Hv. unfold qparse_import, qconsume0 at 1. rewrite Hv. apply vis_true in Hv as (t & l1 & -> & Ht & _).
  pose proof (within_tl _ Hl) as Hl1. cbn [tl] in *. unfold qconsume_path.
  assert (forall r its, rest_of r tokens -> t :: l1 = its ++ r -> exists i es r' its0, QRet (@None (ident * ximport)) [unexpected pal tokens r (txt "the path of a file to import")] r = QRet i es r' /\ ok es /\
    t :: l1 = its0 ++ r' /\ match i with Some (n, i) => import_named u stem n its0 /\ covers (xi_range i) its0 | None => True end) as Hpath.
  { intros r its Hr E. do 4 eexists. split; [reflexivity|]. split; [|split; [exact E|exact I]].
    constructor; [|constructor]. apply (unexpected_ok _ _ (TkPath [])); [exact Hr|constructor]. }
  destruct l1 as [|x l2]; [apply (Hpath [] [t]); auto|].
  destruct (tvar x) eqn:Ex; try (apply (Hpath (x :: l2) [t]); auto). clear Hpath.
  pose proof (within_tl _ Hl1) as Hl2. cbn [tl] in Hl2. destruct (vis TkAs l2) eqn:Ev.
  - unfold qconsume0. rewrite Ev. apply vis_true in Ev as (y & l3 & -> & Hy & _). pose proof (within_tl _ Hl2) as Hl3. cbn [tl] in *. unfold qconsume_ident.
    assert (exists i es r its, QRet (@None (ident * ximport)) [unexpected pal tokens l3 (txt "a name for the import")] l3 = QRet i es r /\ ok es /\
      t :: x :: y :: l3 = its ++ r /\ match i with Some (n, i) => import_named u stem n its /\ covers (xi_range i) its | None => True end) as Hname.
    { exists None, [unexpected pal tokens l3 (txt "a name for the import")], l3, [t; x; y]. split; [reflexivity|]. split; [|split; [reflexivity|exact I]].
      constructor; [|constructor]. apply (unexpected_ok _ _ (TkIdentifier (mkIdent [] []))); [exact Hl3|]. constructor. cbn. tauto. }
    destruct l3 as [|z l4]; [exact Hname|]. destruct (tvar z) eqn:Ez; try exact Hname. clear Hname.
    exists (Some (i, mkXImport (span_range tokens (t :: x :: y :: z :: l4) l4) p None)), [], l4, [t; x; y; z]. split; [reflexivity|]. split; [constructor|]. split; [reflexivity|]. split.
    + apply (named_as _ _ _ p). cbn [vars map]. now rewrite Ht, Ex, Hy, Ez.
    + cbn [xi_range]. apply (span_covers tokens [t; x; y; z] l4). discriminate.
  - assert (vars [t; x] = [TkImport; TkPath p]) as Hvars by (cbn [vars map]; now rewrite Ht, Ex).
    assert (covers (span_range tokens (t :: x :: l2) l2) [t; x]) as Hc by (apply (span_covers tokens [t; x] l2); discriminate).
    destruct (stem p) as [s|] eqn:Es.
    + exists (Some (ident_from u s, mkXImport (span_range tokens (t :: x :: l2) l2) p None)), [], l2, [t; x].
      split; [reflexivity|]. split; [constructor|]. split; [reflexivity|]. split; [now apply (named_file _ _ p)|exact Hc].
    + eexists (Some (ident_from u [65533], mkXImport (span_range tokens (t :: x :: l2) l2) p None)), _, l2, [t; x].
      split; [reflexivity|]. split; [|split; [reflexivity|split; [now apply (named_not _ _ p)|exact Hc]]].
      constructor; [|constructor]. destruct Hl as [before Hb]. apply (complaint_name _ _ _ _ before [t; x] l2 _ p); auto.
Qed.
Lemma map_insert_dup k (i : ximport) m : snd (map_insert k i m) = true -> exists e, In e m /\ ident_cmp k (fst e) = Eq.
Proof.
  induction m as [|[k' i'] m IH]; cbn [map_insert]; [discriminate|]. destruct (ident_cmp k k') eqn:E.
  - intros _. exists (k', i'). split; [now left|exact E].
  - discriminate.
  - destruct (map_insert k i m) as [m' dup]. cbn [snd] in *. intros H. destruct (IH H) as (e & H1 & H2). exists e. split; [now right|exact H2].
Qed.
Lemma map_insert_in k (i : ximport) m e : In e (fst (map_insert k i m)) -> fst e = k \/ (exists e', In e' m /\ fst e' = fst e).
Proof.
  induction m as [|[k' i'] m IH]; cbn [map_insert]; [intros [<-|[]]; now left|]. destruct (ident_cmp k k') eqn:E; cbn [fst].
  - intros [<-|H]; [right; exists (k', i'); split; [now left|reflexivity]|]. right. exists e. split; [now right|reflexivity].
  - intros [<-|H]; [now left|]. right. exists e. split; [exact H|reflexivity].
  - destruct (map_insert k i m) as [m' dup]. cbn [fst] in *. intros [<-|H]; [right; exists (k', i'); split; [now left|reflexivity]|].
    destruct (IH H) as [H'|(e' & H1 & H2)]; [now left|]. right. exists e'. split; [now right|exact H2].
Qed.
Lemma imports_fine fuel : forall m l done, tokens = done ++ l -> Forall (read_import done) m ->
  fine (qparse_imports u stem pal tokens fuel m l).
Proof.
  induction fuel as [|fuel IH]; intros m l done Hl Hm; cbn [qparse_imports]; destruct (vis TkImport l) eqn:Ev; try apply fine_ret; [exact I|].
  destruct (import_fine l) as (i & es & r & its & -> & Hes & -> & Hi); [now exists done|exact Ev|]. cbn [qbind].
  assert (forall m', Forall (read_import (done ++ its)) m' -> fine (qparse_imports u stem pal tokens fuel m' r)) as IH'.
  { intros m' Hm'. apply (IH m' r (done ++ its)); [rewrite <- app_assoc; exact Hl|exact Hm']. }
  assert (forall e, read_import done e -> read_import (done ++ its) e) as Hmono.
  { intros e (a & its' & b & -> & H). exists a, its', (b ++ its). split; [now rewrite <- !app_assoc|exact H]. }
  destruct i as [[name import]|].
  - destruct Hi as [Hn Hc]. pose proof (map_insert_dup name import m) as Hdup. pose proof (map_insert_in name import m) as Hin.
    destruct (map_insert name import m) as [m' dup]. cbn [fst snd] in *. apply fine_add.
    + apply Forall_app. split; [exact Hes|]. destruct dup; [|constructor]. constructor; [|constructor].
      destruct (Hdup eq_refl) as (e & He & Hcmp). rewrite Forall_forall in Hm. destruct (Hm e He) as (a & its0 & b & -> & Hn0).
      eapply (complaint_import _ _ _ _ a its0 b its r (fst e) name); auto. rewrite Hl, <- !app_assoc. reflexivity.
    + apply IH'. apply Forall_forall. intros e He. destruct (Hin e He) as [E|(e' & He' & E)].
      * exists done, its, []. rewrite app_nil_r. split; [reflexivity|now rewrite E].
      * rewrite Forall_forall in Hm. apply Hm in He'. apply Hmono in He'. destruct He' as (a & b & c & H1 & H2). exists a, b, c. split; [exact H1|]. now rewrite <- E.
  - apply fine_add; [exact Hes|]. apply IH'. eapply Forall_impl; [|exact Hm]. apply Hmono.
Qed.
End Errors.

Theorem parse_complaints u stem pal ts es : parse_loc u stem pal ts = XParseErr es -> Forall (complaint u stem pal ts) es /\ es <> [].
Proof.
  destruct ts as [|t0 ts0]; [discriminate|]. set (ts := t0 :: ts0). assert (ts <> []) as Hne by discriminate. clearbody ts.
  unfold parse_loc, qparse_schema. destruct (parse_schema_comment ts) as [c l1] eqn:Ec. apply schema_comment_iff in Ec as (ct & E & _).
  pose proof (imports_fine u stem pal ts Hne (length l1) [] l1 ct E (Forall_nil _)) as Hi.
  pose proof (imports_forget u stem pal ts (length l1) [] l1) as Hf.
  destruct (parse_imports_total u stem (length l1) [] l1 (le_n _)) as (m0 & es0 & r0 & E0 & Hr). cbn [map] in Hf. rewrite E0 in Hf.
  destruct (qparse_imports u stem pal ts (length l1) [] l1) as [imports es1 l2| |]; try discriminate. injection Hf as _ _ ->. cbn [qbind].
  assert (rest_of r0 ts) as Hr0. { apply (suffix_trans _ l1); [exact Hr|]. now exists ct. }
  pose proof (decls_fine u stem pal ts Hne (length r0) r0 Hr0) as Hd.
  pose proof (decls_forget pal ts (length r0) r0) as Hg. pose proof (parse_decls_sound (total ts) (length r0) r0) as Hs.
  destruct (qparse_decls pal ts (length r0) r0) as [decls es2 l3| |]; cbn [qbind qadd]; try discriminate.
  assert (Forall (complaint u stem pal ts) (es1 ++ es2)) as Hall by (apply Forall_app; split; [exact Hi|exact Hd]).
  destruct (es1 ++ es2) as [|e es'] eqn:Ees.
  - apply app_eq_nil in Ees as [-> ->]. cbn [forget map] in Hg. symmetry in Hg. apply Hs in Hg as [-> _]; [discriminate|].
    destruct Hr0 as [pre ->]. unfold total, lenN. rewrite app_length. lia.
  - destruct l3; intros [= <-]; (split; [exact Hall|discriminate]).
Qed.
