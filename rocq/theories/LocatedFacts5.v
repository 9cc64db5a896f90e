(** The advice in the first complaint about a file is right: what is before the complaint can be continued as it says. *)
From Verif Require Import LocatedSpec LocatedFacts LocatedFacts2 LocatedFacts3 ParserFacts ParserFacts2 TokenFacts TokenFacts2 LexErrFacts ReportFacts.
#[local] Arguments span_range : simpl never.

Section Advice.
Context (u : unicode) (Hu : ascii_agrees u) (Hw : white_not_alphabetic u) (stem : str -> option str) (pal : palette) (tokens : list token).

(** ** Tokens that can be written *)
Definition writable (v : tvariant) : Prop := exists text, forall s, lexeme u text v (10 :: s).
Lemma newline_follows s : not_followed_by (name_char u) (10 :: s).
Proof. intros [H|H]; [|discriminate]. rewrite (agrees_alnum u Hu) in H by reflexivity. discriminate. Qed.
Lemma write_symbol c v : In (c, v) symbols -> writable v.
Proof. intros H. exists [c]. intros s. now apply lexeme_symbol. Qed.
Lemma write_keyword k v : In (k, v) reserved -> writable v.
Proof. intros H. exists k. intros s. apply lexeme_keyword; [exact H|apply newline_follows]. Qed.
Definition long_name (k : nat) : str := repeat 97 (S k).
Lemma not_reserved_a k v : ~ In (long_name k, v) reserved.
Proof.
  unfold long_name. destruct k as [|[|k]]; intros H; cbn in H; repeat (destruct H as [H|H]; [discriminate H|]); exact H.
Qed.
Lemma write_name k : writable (TkIdentifier (ident_from u (long_name k))).
Proof.
  exists (long_name k). intros s. unfold long_name at 1 2. cbn [repeat]. apply lexeme_ident.
  - now rewrite (agrees_alpha u Hu).
  - apply Forall_forall. intros c Hc. apply repeat_spec in Hc. subst. left. now rewrite (agrees_alnum u Hu).
  - apply newline_follows.
  - intros v. apply (not_reserved_a k v).
Qed.
Lemma write_zero : writable (TkInteger 0).
Proof.
  exists [48]. intros s. apply lexeme_integer; [discriminate| |lia|cbn; lia].
  apply (decimal_snoc [] 0 0); [constructor|lia].
Qed.
Lemma write_path : writable (TkPath []).
Proof. exists [39; 39]. intros s. apply (lexeme_path u []). intros []. Qed.
Lemma writable_text vs : Forall writable vs -> forall i, exists text ts, vars ts = vs /\ lexed u i text ts /\ Forall (fun t => i <= tstart t) ts.
Proof.
  induction 1 as [|v vs [x Hx] _ IH]; intros i; [exists [], []; repeat split; constructor|].
  destruct (IH (i + blen x + 1)) as (text & ts & H1 & H2 & H3). exists (x ++ 10 :: text), (mkToken i (i + blen x) v :: ts).
  split; [cbn [vars map tvar]; now rewrite <- H1|]. split.
  - apply lexed_token; [apply Hx|]. apply lexed_white; [apply (newline_white u Hu)|exact H2].
  - constructor; [cbn; lia|]. eapply Forall_impl; [|exact H3]. cbv beta. lia.
Qed.
(** A name that is not among the given ones. *)
Lemma long_snake k : snake_case (ident_from u (long_name k)) = long_name k.
Proof.
  cbn [ident_from snake_case]. assert (forall n, Forall (fun c => c = 97) (repeat 97 n)) as Ha by (intros n; apply Forall_forall; intros c Hc; now apply repeat_spec in Hc).
  assert (snaked u (long_name k) = long_name k) as Es.
  { unfold snaked, long_name. generalize (S k). induction n as [|n IH]; [reflexivity|]. cbn [repeat flat_map].
    rewrite (agrees_upper u Hu) by reflexivity. change (ascii_is_upper 97) with false. cbn [app]. now rewrite IH. }
  assert (forall sep n, sep <> 97 -> split_on sep (repeat 97 (S n)) = [repeat 97 (S n)]) as Hsplit.
  { intros sep n Hs. induction n as [|n IH].
    - cbn [repeat split_on]. now replace (97 =? sep) with false by lia.
    - cbn [repeat split_on] in *. replace (97 =? sep) with false in * by lia. now rewrite IH. }
  unfold split_words. rewrite Es. unfold long_name. rewrite Hsplit by (unfold underscore; lia). cbn [flat_map app]. rewrite Hsplit by (unfold hyphen; lia).
  cbn [app filter is_nonempty repeat map join]. change (97 :: repeat 97 k) with (repeat 97 (S k)). rewrite (agrees_lower u Hu).
  - generalize (S k). induction n as [|n IH]; [reflexivity|]. cbn [repeat map]. now rewrite IH.
  - apply forallb_forall. intros c Hc. apply repeat_spec in Hc. now subst.
Qed.
Lemma bytes_cmp_eq a : forall b, bytes_cmp a b = Eq -> a = b.
Proof.
  induction a as [|x a IH]; intros [|y b]; cbn; try discriminate; [reflexivity|]. destruct (x ?= y) eqn:E; try discriminate.
  intros H. apply N.compare_eq in E. subst. f_equal. now apply IH.
Qed.
Lemma fresh_name (names : list ident) : exists k, Forall (fun n => ident_cmp (ident_from u (long_name k)) n <> Eq) names.
Proof.
  assert (exists k, Forall (fun n => (length (utf8_encode (snake_case n)) <= k)%nat) names) as [k Hk].
  { induction names as [|n names [k IH]]; [exists 0%nat; constructor|]. exists (Nat.max k (length (utf8_encode (snake_case n)))).
    constructor; [lia|]. eapply Forall_impl; [|exact IH]. cbv beta. lia. }
  exists k. eapply Forall_impl; [|exact Hk]. cbv beta. intros n Hn E. unfold ident_cmp in E. apply bytes_cmp_eq in E.
  rewrite long_snake in E. apply (f_equal (@length N)) in E. assert (blen (long_name k) = N.of_nat (S k)) as Hb.
  { unfold long_name. generalize (S k). induction n0 as [|m IH]; [reflexivity|]. cbn [repeat]. rewrite blen_cons, IH, clen_ascii by lia. lia. }
  unfold blen, lenN in Hb. lia.
Qed.

(** ** Being stuck *)
Definition stuck (P : list tvariant -> Prop) (l : list token) (e : ploc) : Prop :=
  exists before rest what v more, l = before ++ rest /\ e = unexpected pal tokens rest what /\ expects pal what v /\
    Forall writable (v :: more) /\ P (vars before ++ v :: more).
Lemma stuck_now (P : list tvariant -> Prop) l what v more : expects pal what v -> Forall writable (v :: more) -> P (v :: more) -> stuck P l (unexpected pal tokens l what).
Proof. intros. now exists [], l, what, v, more. Qed.
Lemma stuck_after (P Q : list tvariant -> Prop) pl l e suffix : Forall writable suffix -> (forall ts, P ts -> Q (vars pl ++ ts ++ suffix)) ->
  stuck P l e -> stuck Q (pl ++ l) e.
Proof.
  intros Hs HPQ (before & rest & what & v & more & -> & He & Hx & Hwr & HP).
  exists (pl ++ before), rest, what, v, (more ++ suffix). split; [now rewrite app_assoc|]. split; [exact He|]. split; [exact Hx|].
  split; [change (v :: more ++ suffix) with ((v :: more) ++ suffix); now apply Forall_app|].
  apply HPQ in HP. rewrite vars_app. rewrite <- !app_assoc in *. exact HP.
Qed.
Lemma stuck_weaken (P Q : list tvariant -> Prop) l e : (forall ts, P ts -> Q ts) -> stuck P l e -> stuck Q l e.
Proof. intros H (before & rest & what & v & more & H1 & H2 & H3 & H4 & H5). exists before, rest, what, v, more. auto 10. Qed.

Hint Constructors type_tokens comment_tokens rule_tokens annotation_tokens deleted_tokens many : core.
Ltac wr := repeat first [apply Forall_nil | apply Forall_cons | apply write_zero | apply write_path | apply write_name
  | eapply write_symbol; cbn; tauto | eapply write_keyword; cbn; tauto].
Definition a_type (ts : list tvariant) : Prop := exists t, type_tokens t ts.
Definition a_field (ts : list tvariant) : Prop := exists f, field_tokens f ts.
Definition fields (ts : list tvariant) : Prop := exists fs, many field_tokens fs ts.
Definition a_decl (ts : list tvariant) : Prop := exists d, decl_tokens d ts.
Definition decls (ts : list tvariant) : Prop := exists ds, many decl_tokens ds ts.
Notation name0 := (ident_from u (long_name 0)).

Lemma type_stuck l : forall a e es r, qparse_type pal tokens l = QRet a (e :: es) r -> stuck a_type l e.
Proof.
  induction l as [|x l IH]; intros a e es r; cbn [qparse_type].
  - intros [= <- <- <- <-]. apply (stuck_now _ _ _ TkBool []); [apply expects_type; cbn; tauto|wr|now exists SyBool].
  - assert (forall l' what, l' = x :: l -> QRet (@None xty) [unexpected pal tokens l' what] l' = QRet a (e :: es) r -> what = txt "a type" -> stuck a_type l' e) as Hname.
    { intros l' what -> [= <- <- <- <-] ->. apply (stuck_now _ _ _ (TkIdentifier name0) []); [constructor; cbn; tauto|wr|exists (SyCustom None name0); constructor]. }
    assert (QRet (@None xty) [unexpected pal tokens (x :: l) (txt "the name of an import")] (x :: l) = QRet a (e :: es) r -> stuck a_type (x :: l) e) as Himport.
    { intros [= <- <- <- <-]. apply (stuck_now _ _ _ (TkIdentifier name0) [TkDot; TkIdentifier name0]); [constructor; cbn; tauto|wr|exists (SyCustom (Some name0) name0); constructor]. }
    destruct (tvar x) eqn:Ex; try discriminate.
    13: { unfold qbind. destruct (qparse_type pal tokens l) as [[inner|] es0 r0| |] eqn:Ep; try discriminate.
      - unfold qadd. destruct (qconsume0 _ _ _ _ _ _) as [a1 es1 r1| |] eqn:Ec; try discriminate. intros H. injection H as _ Hes _.
        destruct es0 as [|e0 es0].
        + apply type_is_at in Ep as (pre & -> & Hpre). cbn [app] in Hes. subst es1. unfold qconsume0 in Ec. destruct (vis TkRightSquare r0); [discriminate|].
          injection Ec as _ <- _ _. exists (x :: pre), r0, (code_str pal (token_text TkRightSquare)), TkRightSquare, [].
          split; [reflexivity|]. split; [reflexivity|]. split; [constructor; cbn; tauto|]. split; [wr|].
          assert (exists t, type_tokens t (vars pre)) as [t Ht].
          { clear -Hpre. induction Hpre as [r t a ts b Ha Hts [t' IH] Hb _|r t ts _ H _]; [|eauto]. exists (SyArray t').
            rewrite vars_cons, vars_app, vars_cons, Ha, Hb. now constructor. }
          exists (SyArray t). rewrite vars_cons, Ex. cbn [app]. now constructor.
        + cbn [app] in Hes. injection Hes as -> _. apply (stuck_after a_type a_type [x] l e [TkRightSquare]); [wr| |now apply (IH _ _ _ _ eq_refl)].
          intros ts [t Ht]. exists (SyArray t). cbn [vars map app]. rewrite Ex. now constructor.
      - intros [= _ -> _]. apply (stuck_after a_type a_type [x] l e [TkRightSquare]); [wr| |now apply (IH _ _ _ _ eq_refl)].
        intros ts [t Ht]. exists (SyArray t). cbn [vars map app]. rewrite Ex. now constructor. }
    all: destruct (total tokens <? 2); [discriminate|];
       destruct ((total tokens - lenN (x :: l) <? total tokens - 2) && vis TkDot l) eqn:Ed;
       unfold qconsume_ident; rewrite ?Ex; try exact Himport; try (intros H; now apply (Hname _ _ eq_refl H)); try discriminate.
    apply andb_true_iff in Ed as [_ Ed]. apply vis_true in Ed as (d & l1 & -> & Hd & Ht). cbn [tl] in *.
    assert (QRet (@None xty) [unexpected pal tokens l1 (txt "a type")] l1 = QRet a (e :: es) r -> stuck a_type (x :: d :: l1) e) as Hlast.
    { intros [= <- <- <- <-]. exists [x; d], l1, (txt "a type"), (TkIdentifier name0), []. split; [reflexivity|]. split; [reflexivity|].
      split; [constructor; cbn; tauto|]. split; [wr|]. exists (SyCustom (Some i) name0). cbn [vars map app]. rewrite Ex, Hd. constructor. }
    destruct l1 as [|y l1]; [exact Hlast|]. destruct (tvar y); try exact Hlast. discriminate.
Qed.

Lemma type_at_tokens t ts : type_at t ts -> type_tokens (bare_type t) (vars ts).
Proof.
  induction 1 as [r t a ts b Ha Hts IH Hb _|r t ts _ H _]; [|exact H]. cbn [bare_type].
  rewrite vars_cons, vars_app, vars_cons, Ha, Hb. now constructor.
Qed.
Lemma head_error A (es : list A) e es' es0 : es0 ++ es = e :: es' -> (es0 = [] /\ es = e :: es') \/ exists es1, es0 = e :: es1.
Proof. destruct es0 as [|e0 es0]; [now left|]. cbn. intros [= -> _]. right. now exists es0. Qed.
Lemma field_stuck l a e es r : qparse_field pal tokens l = QRet a (e :: es) r -> stuck a_field l e.
Proof.
  unfold qparse_field. destruct (parse_comment l) as [c l1] eqn:Ec. apply parse_comment_sound in Ec as (p1 & -> & Hc & _).
  destruct (parse_rule l1) as [k l2] eqn:Er. apply parse_rule_sound in Er as (p2 & -> & Hk).
  intros H. rewrite app_assoc. revert H.
  assert (forall n t ts i, annotation_tokens t ts -> a_field (vars (p1 ++ p2) ++ TkIdentifier n :: ts ++ [TkEquals; TkInteger i])) as Hf.
  { intros n t ts i Ht. exists (mkSField c k n t i). rewrite vars_app, <- app_assoc. now constructor. }
  assert (QRet (@None xfield) [unexpected pal tokens l2 (txt "a field")] l2 = QRet a (e :: es) r -> stuck a_field ((p1 ++ p2) ++ l2) e) as Hname.
  { intros [= <- <- <- <-]. exists (p1 ++ p2), l2, (txt "a field"), (TkIdentifier name0), [TkEquals; TkInteger 0]. split; [reflexivity|]. split; [reflexivity|].
    split; [constructor; cbn; tauto|]. split; [wr|]. apply (Hf name0 SyUnit [] 0). constructor. }
  unfold qconsume_ident. destruct l2 as [|t l3]; [exact Hname|]. destruct (tvar t) eqn:Et; try exact Hname. clear Hname. cbv zeta.
  assert (forall ty ty' pt l4, annotation_tokens ty (vars pt) -> l3 = pt ++ l4 ->
    qconsume0 pal tokens TkEquals None l4 (fun l5 =>
      qconsume_integer pal tokens (txt "an index for the field") None l5 (fun index l6 => QRet (Some (mkXField (span_range tokens (p1 ++ p2 ++ t :: l3) l6) c k i ty' index)) [] l6)) = QRet a (e :: es) r ->
    stuck a_field ((p1 ++ p2) ++ t :: l3) e) as Hfin.
  { intros ty ty' pt l4 Hty El. unfold qconsume0, qconsume_integer. destruct (vis TkEquals l4) eqn:Ev.
    - apply vis_true in Ev as (y & l5 & -> & Hy & _). cbn [tl].
      assert (QRet (@None xfield) [unexpected pal tokens l5 (txt "an index for the field")] l5 = QRet a (e :: es) r -> stuck a_field ((p1 ++ p2) ++ t :: l3) e) as Hidx.
      { intros [= <- <- <- <-]. exists ((p1 ++ p2) ++ t :: pt ++ [y]), l5, (txt "an index for the field"), (TkInteger 0), []. split; [rewrite El, <- !app_assoc; cbn [app]; now rewrite <- app_assoc|].
        split; [reflexivity|]. split; [constructor|]. split; [wr|].
        rewrite vars_app, vars_cons, (vars_app pt), Et, (vars_cons y), Hy. cbn [vars map]. rewrite <- app_assoc. cbn [app]. rewrite <- app_assoc. now apply (Hf i ty). }
      destruct l5 as [|z l6]; [exact Hidx|]. destruct (tvar z); try exact Hidx. discriminate.
    - intros [= <- <- <- <-]. exists ((p1 ++ p2) ++ t :: pt), l4, (code_str pal (token_text TkEquals)), TkEquals, [TkInteger 0].
      split; [rewrite El, <- !app_assoc; reflexivity|]. split; [reflexivity|]. split; [constructor; cbn; tauto|]. split; [wr|].
      rewrite vars_app, vars_cons, Et, <- app_assoc. now apply (Hf i ty). }
  destruct (vis TkColon l3) eqn:Ev.
  - apply vis_true in Ev as (y & l4 & -> & Hy & _). cbn [tl].
    assert (forall ts, a_type ts -> a_field (vars ((p1 ++ p2) ++ [t; y]) ++ ts ++ [TkEquals; TkInteger 0])) as Hann.
    { intros ts [ty Hty]. rewrite vars_app. cbn [vars map]. rewrite Et, Hy, <- app_assoc. cbn [app]. apply (Hf i ty (TkColon :: ts)). now constructor. }
    destruct l4 as [|z l4].
    + intros [= <- <- <- <-]. exists ((p1 ++ p2) ++ [t; y]), [], (txt "a type"), TkBool, [TkEquals; TkInteger 0].
      split; [now rewrite app_nil_r|]. split; [reflexivity|]. split; [apply expects_type; cbn; tauto|]. split; [wr|]. apply (Hann [TkBool]). now exists SyBool.
    + unfold qbind. destruct (qparse_type pal tokens (z :: l4)) as [[ty|] es0 l5| |] eqn:Ep; try discriminate.
      * intros H. unfold qadd in H. destruct (qconsume0 _ _ _ _ _ _) as [a1 es1 r1| |] eqn:Eq; try discriminate. injection H as -> Hes ->.
        destruct (head_error _ _ _ _ _ Hes) as [[-> ->]|[es2 ->]].
        -- apply type_is_at in Ep as (pt & Ept & Htt). apply type_at_tokens in Htt.
           apply (Hfin (bare_type ty) ty (y :: pt) l5); [|cbn [app]; now rewrite Ept|exact Eq]. rewrite vars_cons, Hy. now constructor.
        -- apply type_stuck in Ep. replace ((p1 ++ p2) ++ t :: y :: z :: l4) with (((p1 ++ p2) ++ [t; y]) ++ z :: l4) by now rewrite <- app_assoc.
           apply (stuck_after a_type a_field _ _ _ [TkEquals; TkInteger 0]); [wr|exact Hann|exact Ep].
      * intros [= <- -> ->]. apply type_stuck in Ep. replace ((p1 ++ p2) ++ t :: y :: z :: l4) with (((p1 ++ p2) ++ [t; y]) ++ z :: l4) by now rewrite <- app_assoc.
        apply (stuck_after a_type a_field _ _ _ [TkEquals; TkInteger 0]); [wr|exact Hann|exact Ep].
  - intros H. apply (Hfin SyUnit _ [] l3 at_none eq_refl H).
Qed.
Lemma field_some_tokens l f r : qparse_field pal tokens l = QRet (Some f) [] r -> exists pre, l = pre ++ r /\ a_field (vars pre).
Proof.
  intros H. pose proof (field_forget pal tokens l) as Hf. rewrite H in Hf. cbn [forget option_map map] in Hf. symmetry in Hf.
  apply parse_field_sound in Hf as (pre & E & Hp). exists pre. split; [exact E|]. now exists (bare_field f).
Qed.
Lemma fields_stuck : 2 <= total tokens -> forall fuel l a e es r, qparse_fields pal tokens fuel l = QRet a (e :: es) r -> stuck fields l e.
Proof.
  intros Htot. induction fuel as [|fuel IH]; intros l a e es r; destruct l as [|x l]; cbn [qparse_fields]; try discriminate;
    destruct (vis TkDeleted (x :: l) || vis TkRightCurly (x :: l)); try discriminate.
  assert (forall f fs, a_field f -> fields fs -> fields (f ++ fs)) as Hcons by (intros f fs [f' H1] [fs' H2]; exists (f' :: fs'); now constructor).
  assert (stuck a_field (x :: l) e -> stuck fields (x :: l) e) as Hone.
  { apply stuck_weaken. intros ts H. rewrite <- (app_nil_r ts). apply Hcons; [exact H|]. exists []. constructor. }
  destruct (qparse_field pal tokens (x :: l)) as [[f|] es0 r0| |] eqn:Ef; cbn [qbind]; try discriminate.
  - intros H. unfold qadd in H. destruct (qbind _ _) as [a1 es1 r1| |] eqn:Eq; try discriminate. injection H as -> Hes ->.
    destruct (head_error _ _ _ _ _ Hes) as [[-> ->]|[es2 ->]]; [|apply field_stuck in Ef; auto].
    apply field_some_tokens in Ef as (pre & E & Hp). rewrite E.
    destruct (qparse_fields pal tokens fuel r0) as [fs es2 r2| |] eqn:Er; try discriminate. cbn [qbind] in Eq. injection Eq as _ -> _.
    apply (stuck_after fields fields pre r0 e []); [wr| |now apply (IH _ _ _ _ _ Er)]. intros ts Hts. rewrite app_nil_r. now apply Hcons.
  - intros [= <- -> <-]. apply field_stuck in Ef. auto.
Qed.
Lemma deleted_kinds l : forall acc, let '(_, es, _) := qparse_deleted pal tokens acc l in Forall (fun e => xp_kind e = PeDuplicateDeleted) es.
Proof.
  induction l as [|t l IH]; intros acc; cbn [qparse_deleted]; [constructor|]. destruct (tvar t); try constructor.
  destruct (set_insert n acc) as [acc' dup]. specialize (IH acc'). destruct (qparse_deleted pal tokens acc' l) as [[s es] r].
  apply Forall_app. split; [|exact IH]. destruct dup; repeat constructor.
Qed.
Lemma decl_stuck l a e es r : lenN l <= total tokens -> xp_kind e = PeUnexpected -> qparse_decl pal tokens l = QRet a (e :: es) r -> stuck a_decl l e.
Proof.
  intros Hlen Hkind. unfold qparse_decl. destruct (parse_comment l) as [c l1] eqn:Ec.
  apply parse_comment_sound in Ec as (p1 & -> & Hc & _). destruct l1 as [|t l2]; [discriminate|].
  assert (forall k n fs ds, fields fs -> (exists d, deleted_tokens d ds) -> a_decl (vars p1 ++ kind_token k :: TkIdentifier n :: TkLeftCurly :: fs ++ ds ++ [TkRightCurly])) as Hd.
  { intros k n fs ds [fs' Hfs] [d Hd]. exists (mkSDecl c k n fs' d). now apply (decl_tokens_intro c k n fs' d (vars p1) fs ds). }
  assert (fields []) as Hf0 by (exists []; constructor). assert (exists d, deleted_tokens d []) as Hd0 by (exists []; constructor).
  assert (forall k what, tvar t = kind_token k -> (forall n, expects pal (txt "a name for the " ++ what) (TkIdentifier n)) ->
    qconsume_ident pal tokens (txt "a name for the " ++ what) None l2 (fun name l3 =>
          qconsume0 pal tokens TkLeftCurly None l3 (fun l4 =>
            qbind (qparse_fields pal tokens (length l4) l4) (fun fields es l5 =>
              let '(deleted, es', l6) :=
                if vis TkDeleted l5 then qparse_deleted pal tokens [] (tl l5) else ([], [], l5) in
              qadd (es ++ es') (qconsume0 pal tokens TkRightCurly None l6 (fun l7 =>
                QRet (Some (mkXDecl (span_range tokens (p1 ++ t :: l2) l7) c k name fields deleted)) [] l7))))) = QRet a (e :: es) r -> stuck a_decl (p1 ++ t :: l2) e) as Hgo.
  { intros k what Hk He.
    assert (QRet (@None xdecl) [unexpected pal tokens l2 (txt "a name for the " ++ what)] l2 = QRet a (e :: es) r -> stuck a_decl (p1 ++ t :: l2) e) as Hname.
    { intros [= <- <- <- <-]. exists (p1 ++ [t]), l2, (txt "a name for the " ++ what), (TkIdentifier name0), [TkLeftCurly; TkRightCurly].
      split; [now rewrite <- app_assoc|]. split; [reflexivity|]. split; [apply He|]. split; [wr|].
      rewrite vars_app. cbn [vars map]. rewrite Hk, <- app_assoc. exact (Hd k name0 [] [] Hf0 Hd0). }
    unfold qconsume_ident. destruct l2 as [|x l3]; [exact Hname|]. destruct (tvar x) eqn:Ex; try exact Hname. clear Hname.
    unfold qconsume0 at 1. destruct (vis TkLeftCurly l3) eqn:Ev.
    - apply vis_true in Ev as (y & l4 & -> & Hy & _). cbn [tl].
      assert (2 <= total tokens) as Ht2 by (unfold lenN in Hlen; rewrite app_length in Hlen; cbn [length] in Hlen; lia).
      assert (forall fs, vars (p1 ++ [t; x; y]) ++ fs = vars p1 ++ kind_token k :: TkIdentifier i :: TkLeftCurly :: fs) as Ehead.
      { intros fs. rewrite vars_app. cbn [vars map]. rewrite Hk, Ex, Hy, <- app_assoc. reflexivity. }
      replace (p1 ++ t :: x :: y :: l4) with ((p1 ++ [t; x; y]) ++ l4) by now rewrite <- app_assoc.
      destruct (qparse_fields pal tokens (length l4) l4) as [fs es0 l5| |] eqn:Ef; cbn [qbind]; try discriminate.
      destruct es0 as [|e0 es0].
      + pose proof (fields_forget pal tokens (length l4) l4) as Hfg. rewrite Ef in Hfg. cbn [forget map] in Hfg. symmetry in Hfg.
        apply parse_fields_sound in Hfg as (pf & -> & Hpf); [|exact Ht2].
        assert (fields (vars pf)) as Hfs by (now exists (map bare_field fs)).
        assert (forall del es' l6, (if vis TkDeleted l5 then qparse_deleted pal tokens [] (tl l5) else ([], [], l5)) = (del, es', l6) ->
          Forall (fun e => xp_kind e = PeDuplicateDeleted) es' /\ (es' = [] -> exists pd, l5 = pd ++ l6 /\ exists d, deleted_tokens d (vars pd))) as Hdel.
        { intros del es' l6 E. destruct (vis TkDeleted l5) eqn:Ev.
          - apply vis_true in Ev as (z & l5' & -> & Hz & _). cbn [tl] in E. pose proof (deleted_kinds l5' []) as Hkd. pose proof (deleted_forget pal tokens l5' []) as Hdf.
            rewrite E in Hkd, Hdf. split; [exact Hkd|]. intros ->. cbn [map] in Hdf. apply parse_deleted_sound in Hdf as (pre & ns & -> & Hv & Hn & _ & Hp & Hs); [|constructor].
            exists (z :: pre). split; [reflexivity|]. exists del. rewrite vars_cons, Hz, Hv. constructor; auto. now rewrite app_nil_r in Hp.
          - injection E as <- <- <-. split; [constructor|]. intros _. exists []. split; [reflexivity|]. exists []. constructor. }
        destruct (if vis TkDeleted l5 then qparse_deleted pal tokens [] (tl l5) else ([], [], l5)) as [[del es'] l6].
        destruct (Hdel del es' l6 eq_refl) as [Hk1 Hk2]. cbn [app]. unfold qadd. destruct (qconsume0 _ _ _ _ _ _) as [a1 es1 r1| |] eqn:Eq; try discriminate.
        intros H. injection H as -> Hes ->. destruct (head_error _ _ _ _ _ Hes) as [[-> ->]|[es2 ->]].
        * destruct (Hk2 eq_refl) as (pd & -> & Hdd). unfold qconsume0 in Eq. destruct (vis TkRightCurly l6); [discriminate|].
          injection Eq as _ <- _ _. exists ((p1 ++ [t; x; y]) ++ pf ++ pd), l6, (code_str pal (token_text TkRightCurly)), TkRightCurly, [].
          split; [now rewrite <- !app_assoc|]. split; [reflexivity|]. split; [constructor; cbn; tauto|]. split; [wr|].
          rewrite !vars_app, <- (vars_app p1), <- !app_assoc, Ehead. now apply Hd.
        * inversion Hk1 as [|? ? Hbad _]; subst. congruence.
      + intros H. assert (e0 = e) as ->.
        { destruct (if vis TkDeleted l5 then qparse_deleted pal tokens [] (tl l5) else ([], [], l5)) as [[del es'] l6]. cbn [app] in H. unfold qadd in H.
          destruct (qconsume0 _ _ _ _ _ _); try discriminate. cbn [app] in H. now injection H. }
        apply fields_stuck in Ef; [|exact Ht2]. apply (stuck_after fields a_decl _ _ _ [TkRightCurly]); [wr| |exact Ef].
        intros ts Hts. rewrite Ehead. apply (Hd k i ts []); auto.
    - intros [= <- <- <- <-]. exists (p1 ++ [t; x]), l3, (code_str pal (token_text TkLeftCurly)), TkLeftCurly, [TkRightCurly].
      split; [now rewrite <- app_assoc|]. split; [reflexivity|]. split; [constructor; cbn; tauto|]. split; [wr|].
      rewrite vars_app. cbn [vars map]. rewrite Hk, Ex, <- app_assoc. exact (Hd k i [] [] Hf0 Hd0). }
  assert (QRet (@None xdecl) [unexpected pal tokens (t :: l2) (txt "a declaration")] (t :: l2) = QRet a (e :: es) r -> stuck a_decl (p1 ++ t :: l2) e) as Hdecl.
  { intros [= <- <- <- <-]. exists p1, (t :: l2), (txt "a declaration"), TkStruct, [TkIdentifier name0; TkLeftCurly; TkRightCurly].
    split; [reflexivity|]. split; [reflexivity|]. split; [constructor; now left|]. split; [wr|]. exact (Hd SkStruct name0 [] [] Hf0 Hd0). }
  destruct (tvar t) eqn:Et; try exact Hdecl; [apply (Hgo SkChoice (txt "choice") eq_refl)|apply (Hgo SkStruct (txt "struct") eq_refl)]; intros n; constructor; cbn; tauto.
Qed.
Lemma decls_stuck : forall fuel l a e es r, lenN l <= total tokens -> xp_kind e = PeUnexpected ->
  qparse_decls pal tokens fuel l = QRet a (e :: es) r -> stuck decls l e.
Proof.
  induction fuel as [|fuel IH]; intros l a e es r Hlen Hkind; destruct l as [|x l]; cbn [qparse_decls]; try discriminate.
  assert (forall d ds, a_decl d -> decls ds -> decls (d ++ ds)) as Hcons by (intros d ds [d' H1] [ds' H2]; exists (d' :: ds'); now constructor).
  assert (stuck a_decl (x :: l) e -> stuck decls (x :: l) e) as Hone.
  { apply stuck_weaken. intros ts H. rewrite <- (app_nil_r ts). apply Hcons; [exact H|]. exists []. constructor. }
  destruct (qparse_decl pal tokens (x :: l)) as [[d|] es0 r0| |] eqn:Ef; cbn [qbind]; try discriminate.
  - intros H. unfold qadd in H. destruct (qbind _ _) as [a1 es1 r1| |] eqn:Eq; try discriminate. injection H as -> Hes ->.
    destruct (head_error _ _ _ _ _ Hes) as [[-> ->]|[es2 ->]]; [|apply decl_stuck in Ef; auto].
    pose proof (decl_forget pal tokens (x :: l)) as Hdf. rewrite Ef in Hdf. cbn [forget option_map map] in Hdf. symmetry in Hdf.
    apply parse_decl_sound in Hdf as (pre & E & Hp); [|exact Hlen]. rewrite E.
    destruct (qparse_decls pal tokens fuel r0) as [fs es2 r2| |] eqn:Er; try discriminate. cbn [qbind] in Eq. injection Eq as _ -> _.
    apply (stuck_after decls decls pre r0 e []); [wr| |].
    + intros ts Hts. rewrite app_nil_r. apply Hcons; [now exists (bare_decl d)|exact Hts].
    + apply (IH _ _ _ _ _) in Er; auto. rewrite E in Hlen. unfold lenN in *. rewrite app_length in Hlen. lia.
  - intros [= <- -> <-]. apply decl_stuck in Ef; auto.
Qed.
(** Imports, with names that differ from those in [m]. *)
Definition imports (m : list ident) (ts : list tvariant) : Prop :=
  exists listed, many (import_tokens u stem) listed ts /\ ForallOrdPairs (fun a b => ident_cmp (fst a) (fst b) <> Eq) listed /\
    Forall (fun e => Forall (fun n => ident_cmp (fst e) n <> Eq) m) listed.
Lemma import_stuck k l a e es r : xp_kind e = PeUnexpected -> qparse_import u stem pal tokens l = QRet a (e :: es) r ->
  vis TkImport l = true -> stuck (fun ts => exists i, import_tokens u stem (ident_from u (long_name k), i) ts) l e.
Proof.
  intros Hkind. unfold qparse_import, qconsume0 at 1. intros H Hv. rewrite Hv in H. apply vis_true in Hv as (t & l1 & -> & Ht & _). cbn [tl] in H. revert H.
  set (n := ident_from u (long_name k)).
  assert (QRet (@None (ident * ximport)) [unexpected pal tokens l1 (txt "the path of a file to import")] l1 = QRet a (e :: es) r ->
    stuck (fun ts => exists i, import_tokens u stem (n, i) ts) (t :: l1) e) as Hpath.
  { intros [= <- <- <- <-]. exists [t], l1, (txt "the path of a file to import"), (TkPath []), [TkAs; TkIdentifier n].
    split; [reflexivity|]. split; [reflexivity|]. split; [constructor|]. split; [wr|]. exists (mkSImport [] None). cbn [vars map app]. rewrite Ht. constructor. }
  unfold qconsume_path. destruct l1 as [|x l2]; [exact Hpath|]. destruct (tvar x) eqn:Ex; try exact Hpath. clear Hpath.
  destruct (vis TkAs l2) eqn:Ev.
  - unfold qconsume0. rewrite Ev. apply vis_true in Ev as (y & l3 & -> & Hy & _). cbn [tl].
    assert (QRet (@None (ident * ximport)) [unexpected pal tokens l3 (txt "a name for the import")] l3 = QRet a (e :: es) r ->
      stuck (fun ts => exists i, import_tokens u stem (n, i) ts) (t :: x :: y :: l3) e) as Hname.
    { intros [= <- <- <- <-]. exists [t; x; y], l3, (txt "a name for the import"), (TkIdentifier n), [].
      split; [reflexivity|]. split; [reflexivity|]. split; [constructor; cbn; tauto|]. split; [wr|]. exists (mkSImport p None). cbn [vars map app]. rewrite Ht, Ex, Hy. constructor. }
    unfold qconsume_ident. destruct l3 as [|z l4]; [exact Hname|]. destruct (tvar z); try exact Hname. discriminate.
  - destruct (stem p); [discriminate|]. intros [= <- <- <- <-]. discriminate.
Qed.
Lemma imports_stuck : forall fuel m l a e es r, StronglySorted xlt m -> xp_kind e = PeUnexpected ->
  qparse_imports u stem pal tokens fuel m l = QRet a (e :: es) r -> stuck (imports (map fst m)) l e.
Proof.
  induction fuel as [|fuel IH]; intros m l a e es r Hs Hkind; cbn [qparse_imports]; destruct (vis TkImport l) eqn:Ev; try discriminate.
  assert (forall o es0 r0, qparse_import u stem pal tokens l = QRet o (e :: es0) r0 -> stuck (imports (map fst m)) l e) as Hone.
  { intros o es0 r0 E. destruct (fresh_name (map fst m)) as [k Hk]. eapply stuck_weaken; [|now apply (import_stuck k _ _ _ _ _ Hkind E)].
    intros ts [i Hi]. exists [(ident_from u (long_name k), i)]. split; [rewrite <- (app_nil_r ts); repeat constructor; exact Hi|].
    split; [repeat constructor|]. constructor; [exact Hk|constructor]. }
  destruct (qparse_import u stem pal tokens l) as [o es0 r0| |] eqn:Ei; cbn [qbind]; try discriminate.
  destruct o as [[name import]|].
  - destruct (map_insert name import m) as [m2 dup] eqn:Em. intros H. unfold qadd in H. destruct (qparse_imports u stem pal tokens fuel m2 r0) as [a1 es1 r1| |] eqn:Eqq; try discriminate.
    injection H as -> Hes ->. rewrite <- app_assoc in Hes. destruct (head_error _ _ _ _ _ Hes) as [[-> Hes']|[es2 ->]]; [|exact (Hone _ es2 r0 eq_refl)].
    destruct dup; [cbn [app] in Hes'; injection Hes' as <- _; discriminate|]. cbn [app] in Hes'. subst es1.
    destruct (map_insert_spec _ _ _ _ _ Hs Em) as (Hp & Hs2 & Hfr). apply import_is_at in Ei as (pre & -> & Hi). inversion Hi as [? ? ? Hit Hcov]; subst.
    apply (stuck_after (imports (map fst m2)) (imports (map fst m)) pre r0 e []); [wr| |now apply (IH m2 r0 _ _ _ _ Hs2 Hkind Eqq)].
    intros ts (listed & H1 & H2 & H3). rewrite app_nil_r. exists ((name, bare_import import) :: listed). split; [now constructor|].
    assert (Forall (fun e0 : ident * simport => Forall (fun n => ident_cmp (fst e0) n <> Eq) (name :: map fst m)) listed) as H4.
    { eapply Forall_impl; [|exact H3]. cbv beta. intros e0 He0. apply (Permutation_Forall (x := map fst m2)); [|exact He0].
      change (name :: map fst m) with (map fst ((name, import) :: m)). apply Permutation_map. now symmetry. }
    split; constructor; try assumption.
    + eapply Forall_impl; [|exact H4]. cbv beta. intros e0 He0. inversion He0 as [|? ? H5 _]; subst. cbn [fst]. intros E. apply H5. rewrite cmp_sym, E. reflexivity.
    + cbn [fst]. apply Forall_map. exact Hfr.
    + eapply Forall_impl; [|exact H4]. cbv beta. intros e0 He0. now inversion He0.
  - intros H. unfold qadd in H. destruct (qparse_imports u stem pal tokens fuel m r0) as [a1 es1 r1| |] eqn:Eqq; try discriminate.
    injection H as -> Hes ->. destruct (head_error _ _ _ _ _ Hes) as [[-> ->]|[es2 ->]]; [|exact (Hone _ es2 r0 eq_refl)].
    exfalso. pose proof (import_forget u stem pal tokens l) as Hf. rewrite Ei in Hf. cbn [forget option_map map] in Hf.
    destruct (parse_import_cases u stem l Ev) as (o & ess & r1' & E & _ & _ & Hn). rewrite E in Hf. injection Hf as <- <- _. now apply Hn.
Qed.
End Advice.
