(** The advice in the first complaint about a file is right, continued: a file with what is before the complaint,
    the advised token and some more is a schema. *)
From Verif Require Import LocatedSpec LocatedFacts LocatedFacts2 LocatedFacts3 LocatedFacts4 LocatedFacts5 ParserFacts ParserFacts2 TokenFacts TokenFacts2 LexErrFacts ReportFacts.
#[local] Arguments span_range : simpl never.

Section Advice.
Context (u : unicode) (Hu : ascii_agrees u) (Hw : white_not_alphabetic u) (stem : str -> option str) (pal : palette).

(** ** The text before a token, with another end *)
Lemma recut_follows (P : N -> Prop) a b s : ~ P 10 -> not_followed_by P (a ++ b) -> not_followed_by P (a ++ 10 :: s).
Proof. destruct a as [|c a]; intros; assumption. Qed.
Lemma blank_then_hash ws a r s : Forall (fun c => is_whitespace u c = true /\ c <> 10) ws -> a ++ 10 :: s = ws ++ 35 :: r -> exists r', a = ws ++ 35 :: r'.
Proof.
  revert a. induction ws as [|w ws IH]; intros [|c a] Hb E; cbn [app] in E.
  - discriminate.
  - injection E as -> _. now exists a.
  - injection E as <- _. inversion Hb as [|? ? [_ H10] _]; subst. congruence.
  - injection E as <- E. inversion Hb as [|? ? _ Hb']; subst. destruct (IH a Hb' E) as [r' ->]. now exists r'.
Qed.
Lemma lexeme_recut text v a b s : lexeme u text v (a ++ b) -> lexeme u text v (a ++ 10 :: 10 :: s).
Proof.
  assert (~ name_char u 10) as H10 by (intros H; now apply (newline_follows u Hu s) in H).
  intros H. remember (a ++ b) as rest eqn:Er. destruct H as [c v rest H|k v rest H Hr|c name rest H Hn Hr Hk|name rest Hne Hh Hn Hr|digits n rest Hd Hdec Hlt Hr|p rest Hp|lines body ps rest Hb Hps He]; subst rest.
  - now apply lexeme_symbol.
  - apply lexeme_keyword; [exact H|]. now apply recut_follows with b.
  - apply lexeme_ident; auto. now apply recut_follows with b.
  - apply lexeme_raw_ident; auto. now apply recut_follows with b.
  - apply lexeme_integer; auto. apply recut_follows with b; [lia|exact Hr].
  - now apply lexeme_path.
  - apply (lexeme_comment u lines); auto. right. destruct a as [|c a].
    + exists (10 :: s). split; [reflexivity|]. intros ws r Hbl E. apply (blank_then_hash ws []) in E as [r' E]; [|exact Hbl]. now destruct ws.
    + destruct He as [He|(rest' & He & Hnot)]; [discriminate|]. cbn [app] in He. injection He as -> <-. exists (a ++ 10 :: 10 :: s). split; [reflexivity|].
      intros ws r Hbl E. apply blank_then_hash in E as [r' ->]; [|exact Hbl]. apply (Hnot ws (r' ++ b) Hbl). now rewrite <- app_assoc.
Qed.
Definition place (i : N) (before rest : list token) : N :=
  match rest with t :: _ => tstart t | [] => last (map tend before) i end.
Lemma last_indep (x : token) before i j : last (map tend (x :: before)) i = last (map tend (x :: before)) j.
Proof. destruct (exists_last (l := x :: before)) as (b' & y & ->); [discriminate|]. rewrite map_app. cbn [map]. now rewrite !last_last. Qed.
Lemma lexed_cut : forall i s ts, lexed u i s ts -> forall before rest, ts = before ++ rest -> rest <> [] \/ before <> [] ->
  exists a b, s = a ++ b /\ place i before rest = i + blen a /\
    forall tail ts', lexed u (i + blen a) (10 :: 10 :: tail) ts' -> lexed u i (a ++ 10 :: 10 :: tail) (before ++ ts').
Proof.
  induction 1 as [i|i c s ts Hc H IH|i text v rest0 ts Hl H IH]; intros before rest E Hne.
  - symmetry in E. apply app_eq_nil in E as [-> ->]. destruct Hne; congruence.
  - destruct (IH before rest E Hne) as (a & b & -> & Hp & Ht). exists (c :: a), b. split; [reflexivity|]. rewrite blen_cons. unfold clen, lenN in *.
    split.
    + rewrite N.add_assoc, <- Hp. unfold place. destruct rest; [|reflexivity]. destruct before as [|x before]; [destruct Hne; congruence|]. apply last_indep.
    + intros tail ts' Hlex. cbn [app]. apply lexed_white; [exact Hc|]. apply Ht. now rewrite <- N.add_assoc.
  - destruct before as [|t before].
    { cbn [app] in E. subst rest. exists [], (text ++ rest0). split; [reflexivity|]. rewrite blen_nil. cbn [place tstart]. split; [lia|].
      intros tail ts'. now rewrite N.add_0_r. }
    injection E as <- ->.
    assert (exists a b, rest0 = a ++ b /\ place (i + blen text) before rest = i + blen text + blen a /\
      forall tail ts', lexed u (i + blen text + blen a) (10 :: 10 :: tail) ts' -> lexed u (i + blen text) (a ++ 10 :: 10 :: tail) (before ++ ts')) as (a & b & -> & Hp & Ht).
    { destruct before as [|x before]; [destruct rest as [|x rest]|].
      - exists [], rest0. split; [reflexivity|]. cbn [place map last]. rewrite blen_nil. split; [lia|]. intros tail ts'. now rewrite N.add_0_r.
      - apply IH; [reflexivity|left; discriminate].
      - apply IH; [reflexivity|right; discriminate]. }
    exists (text ++ a), b. split; [now rewrite app_assoc|]. rewrite blen_app, N.add_assoc. split.
    + rewrite <- Hp. unfold place. destruct rest; [|reflexivity]. destruct before as [|x before]; [reflexivity|].
      cbn [map]. change (last (i + lenN (utf8_encode text) :: tend x :: map tend before) i) with (last (map tend (x :: before)) i). apply last_indep.
    + intros tail ts' Hlex. rewrite <- app_assoc. cbn [app]. apply lexed_token; [now apply lexeme_recut with b|now apply Ht].
Qed.

(** ** The leading comment *)
Definition body (ts : list tvariant) : Prop := exists it dt, ts = it ++ dt /\ imports u stem [] it /\ decls dt.
Lemma store_imports : forall listed : list (ident * simport), ForallOrdPairs (fun a b => ident_cmp (fst a) (fst b) <> Eq) listed ->
  exists stored, same_imports listed stored.
Proof.
  intros listed H. assert (exists stored, Permutation listed stored /\ StronglySorted (@klt simport) stored) as (stored & Hp & Hs).
  { induction H as [|[n i] listed Hf Hr (stored & Hp & Hs)]; [exists []; split; constructor|].
    assert (Forall (fun e : ident * simport => ident_cmp n (fst e) <> Eq) stored) as Hf' by (now apply (Permutation_Forall Hp)).
    pose proof (map_insert_fresh _ stored n i Hf') as Hdup. destruct (map_insert n i stored) as [m2 dup] eqn:Em. cbn [snd] in Hdup. subst dup.
    destruct (map_insert_spec _ _ _ _ _ Hs Em) as (Hp2 & Hs2 & _). exists m2. split; [|exact Hs2]. rewrite Hp. exact Hp2. }
  exists stored. now repeat split.
Qed.
Lemma body_grammar c ct l : schema_comment c ct l -> body (vars l) -> exists s, schema_grammar u stem s (ct ++ l).
Proof.
  intros Hc (it & dt & E & (listed & H1 & H2 & _) & (ds & H3)). destruct (store_imports listed H2) as [stored Hst].
  unfold vars in E. apply map_eq_app in E as (it' & dt' & -> & E1 & E2). exists (mkSSchema c stored ds). subst it dt.
  econstructor; eauto.
Qed.
Lemma no_comment_first it ts ps : imports u stem [] it -> it ++ ts = TkComment ps :: tl (it ++ ts) -> it = [].
Proof. intros (listed & H & _). destruct H as [|? ? ? ? Hi]; [reflexivity|]. destruct Hi; cbn [app]; discriminate. Qed.
Lemma drop_comment v vs ps : (forall ps', v <> TkComment ps') -> body (TkComment ps :: v :: vs) -> body (v :: vs).
Proof.
  intros Hv (it & dt & E & Hi & Hd). assert (it = []) as -> by (apply (no_comment_first it dt ps Hi); rewrite <- E; reflexivity). cbn [app] in E. subst dt.
  exists [], (v :: vs). split; [reflexivity|]. split; [exact Hi|]. destruct Hd as [ds H].
  remember (TkComment ps :: v :: vs) as l eqn:El. destruct H as [|d ds t ts Hd H]; [discriminate|].
  destruct Hd as [c k n fs d cs fts dts Hc Hf Hdl]. destruct Hc as [|ps'].
  - destruct k; discriminate.
  - cbn [app] in El. injection El as _ El1 El2. exists (mkSDecl [] k n fs d :: ds).
    replace (v :: vs) with (([] ++ [kind_token k; TkIdentifier n; TkLeftCurly] ++ fts ++ dts ++ [TkRightCurly]) ++ ts) by (cbn [app]; congruence).
    constructor; [|exact H]. constructor; auto. constructor.
Qed.
Lemma expects_no_comment what v ps : expects pal what v -> v <> TkComment ps.
Proof.
  intros H. destruct H as [v H|v H|? ? H|?|?|v H]; try discriminate; cbn in H.
  - now repeat (destruct H as [H|H]; [subst v; discriminate|]).
  - now repeat (destruct H as [H|H]; [subst v; discriminate|]).
  - destruct H as [->| ->]; discriminate.
Qed.

(** ** The advice *)
Lemma schema_stuck tokens e es : parse_loc u stem pal tokens = XParseErr (e :: es) -> xp_kind e = PeUnexpected ->
  exists c ct l1, tokens = ct ++ l1 /\ schema_comment c ct l1 /\ stuck u pal tokens body l1 e.
Proof.
  unfold parse_loc, qparse_schema. intros H Hkind. destruct (parse_schema_comment tokens) as [c l1] eqn:Ec.
  apply schema_comment_iff in Ec as (ct & E & Hc). exists c, ct, l1. split; [exact E|]. split; [exact Hc|]. revert H.
  destruct (qparse_imports u stem pal tokens (length l1) [] l1) as [ims es1 l2| |] eqn:Ei; cbn [qbind]; try discriminate.
  destruct (qparse_decls pal tokens (length l2) l2) as [ds es2 l3| |] eqn:Ed; cbn [qbind qadd]; try discriminate.
  intros H. assert (es1 ++ es2 = e :: es) as Hes.
  { destruct (es1 ++ es2) as [|e' es'] eqn:Ees; destruct l3; try discriminate; injection H; [|congruence..]. intros _ <-. discriminate. }
  destruct (head_error _ _ _ _ _ Hes) as [[-> ->]|[es3 ->]].
  - pose proof (imports_forget u stem pal tokens (length l1) [] l1) as Hif. rewrite Ei in Hif. cbn [forget map] in Hif. symmetry in Hif.
    apply parse_imports_sound in Hif as (it & listed & -> & Hm & Hd & _ & _ & _); [|constructor].
    apply (stuck_after u pal tokens decls body it l2 e []); [constructor| |].
    + intros ts Hts. rewrite app_nil_r. exists (vars it), ts. split; [reflexivity|]. split; [|exact Hts]. exists listed. split; [exact Hm|]. split; [exact Hd|].
      apply Forall_forall. intros; constructor.
    + eapply decls_stuck; [exact Hu|..|exact Ed]; auto. rewrite E. unfold total, lenN. rewrite !app_length. lia.
  - apply (imports_stuck u Hu stem pal tokens) in Ei; [|constructor|exact Hkind]. eapply stuck_weaken; [|exact Ei].
    intros ts Hts. exists ts, []. split; [now rewrite app_nil_r|]. split; [exact Hts|]. exists []. constructor.
Qed.
Lemma recut_comment c ct before rest new v vs : schema_comment c ct (before ++ rest) -> vars new = v :: vs -> (forall ps, v <> TkComment ps) ->
  Forall (fun t => Forall (fun t' => tend t + 1 < tstart t') new) (ct ++ before) -> body (vars before ++ v :: vs) ->
  exists s, schema_grammar u stem s (ct ++ before ++ new).
Proof.
  intros Hc Hnew Hv Hfar Hbody. rewrite <- Hnew, <- vars_app in Hbody.
  assert (forall t, In t (ct ++ before) -> ~ belongs_to_next t new) as Hnot.
  { intros t Hin (t' & rest' & -> & _ & Hle). rewrite Forall_forall in Hfar. specialize (Hfar t Hin). inversion Hfar; subst. lia. }
  remember (before ++ rest) as l eqn:El. destruct Hc as [ps t l Ht Hb|l Hb]; subst l.
  - apply body_grammar with ps; [|exact Hbody]. constructor; [exact Ht|]. destruct before as [|x before]; [apply Hnot; now left|].
    intros (t' & rest' & E & H1 & H2). cbn [app] in E. injection E as <- <-. apply Hb. exists x, (before ++ rest). auto.
  - destruct before as [|x before].
    + apply body_grammar with []; [|exact Hbody]. apply sc_none. intros t rest' ps E Ht. cbn [app] in E. subst new. cbn [vars map] in Hnew. injection Hnew as Hx _. congruence.
    + destruct (tvar x) as [| | | | | |ps| | | | | | | | | | | | | | | | | |] eqn:Ex.
      7: { destruct before as [|y before].
        - cbn [app]. change (x :: new) with ([x] ++ new). apply body_grammar with ps; [constructor; [exact Ex|apply Hnot; now left]|].
          rewrite Hnew. apply (drop_comment v vs ps); [exact Hv|]. cbn [app] in Hbody. now rewrite vars_cons, Ex, Hnew in Hbody.
        - apply body_grammar with []; [|exact Hbody]. apply sc_none. intros t rest' ps0 E Ht. cbn [app] in E. injection E as <- <-.
          destruct (Hb x _ ps0 eq_refl Ht) as (t' & r' & E & H1 & H2). injection E as <- _. exists y, (before ++ new). auto. }
      all: apply body_grammar with []; [|exact Hbody]; apply sc_none; intros t rest' ps0 E Ht; cbn [app] in E; injection E as <- _; congruence.
Qed.
Theorem advice contents ts e es : lexed u 0 contents ts -> parse_loc u stem pal ts = XParseErr (e :: es) -> xp_kind e = PeUnexpected ->
  exists a b what v text rest s, contents = a ++ b /\ r_start (xp_range e) = blen a /\
    (xp_message e = txt "Expected " ++ what ++ txt " at the end of the file." \/
     exists t, In t ts /\ tstart t = blen a /\ xp_message e = txt "Expected " ++ what ++ txt ", but encountered " ++ code_str pal (token_text (tvar t)) ++ txt ".") /\
    expects pal what v /\ lexeme u text v rest /\
    exists ts', lexed u 0 (a ++ 10 :: 10 :: text ++ rest) ts' /\ schema_grammar u stem s ts'.
Proof.
  intros Hlex Hp Hkind. destruct (schema_stuck ts e es Hp Hkind) as (c & ct & l1 & E & Hc & (before & rest & what & v & more & -> & He & Hx & Hwr & Hbody)).
  assert (ts <> []) as Hne by (intros ->; discriminate).
  assert (rest <> [] \/ ct ++ before <> []) as Hne2.
  { destruct rest; [right|left; discriminate]. rewrite app_nil_r in E. congruence. }
  rewrite app_assoc in E. destruct (lexed_cut 0 contents ts Hlex (ct ++ before) rest E Hne2) as (a & b & Ec & Hplace & Htail). rewrite N.add_0_l in *.
  inversion Hwr as [|v1 more1 [x Hxl] Hmore Ev1]. clear Ev1. 
  destruct (writable_text u Hu stem more Hmore (blen a + 2 + blen x + 1)) as (text & new & Hv & Hl & Hge).
  set (t0 := mkToken (blen a + 2) (blen a + 2 + blen x) v).
  assert (lexed u (blen a) (10 :: 10 :: x ++ 10 :: text) (t0 :: new)) as Hnewlex.
  { assert (is_whitespace u 10 = true) as H10 by apply (newline_white u Hu).
    apply lexed_white; [exact H10|]. apply lexed_white; [exact H10|]. change (lenN (utf8_char 10)) with 1.
    replace (blen a + 1 + 1) with (blen a + 2) by lia. apply lexed_token; [apply Hxl|]. apply lexed_white; [exact H10|]. exact Hl. }
  assert (forall t, In t (ct ++ before) -> tend t <= blen a) as Hends.
  { intros t Hin. rewrite <- Hplace. destruct (lexed_ordered u 0 contents ts Hlex) as [Ho _]. rewrite E in Ho. unfold place. destruct rest as [|t1 rest].
    - rewrite app_nil_r in Ho. apply in_split in Hin as (l1 & l2 & Hsp). rewrite Hsp in *.
      destruct l2 as [|y l2] using rev_ind; [rewrite map_app; cbn [map]; rewrite last_last; lia|].
      rewrite map_app. cbn [map]. rewrite map_app, app_comm_cons. cbn [map]. rewrite app_assoc, last_last.
      apply ordered_slice in Ho. assert (Forall (fun t => tstart t < tend t /\ tend t <= 0 + blen contents) ts) as Hpos by (apply (lexed_ordered u 0 contents ts Hlex)).
      rewrite Forall_forall in Hpos. assert (In y ts) as Hy by (rewrite E, app_nil_r; apply in_app_iff; right; right; apply in_app_iff; right; now left).
      apply Hpos in Hy. lia.
    - apply in_split in Hin as (l1 & l2 & Hsp). rewrite Hsp in Ho. rewrite <- app_assoc in Ho. cbn [app] in Ho. now apply ordered_slice in Ho. }
  destruct (recut_comment c ct before rest (t0 :: new) v more Hc) as [s Hs]; auto.
  - cbn [vars map tvar t0]. now rewrite <- Hv.
  - intros ps. now apply (expects_no_comment what).
  - apply Forall_forall. intros t Hin. apply Hends in Hin. constructor; [cbn [t0 tstart]; lia|]. eapply Forall_impl; [|exact Hge]. cbv beta. lia.
  - exists a, b, what, v, x, (10 :: text), s. split; [exact Ec|]. split; [|split; [|split; [exact Hx|split; [apply Hxl|]]]].
    + rewrite He. rewrite <- Hplace. cbn [unexpected xp_range]. unfold range_at, place, eof. destruct rest as [|t1 rest]; cbn [r_start]; [|reflexivity].
      rewrite app_nil_r in E. rewrite <- E. reflexivity.
    + rewrite He. unfold unexpected. cbn [xp_message]. destruct ts as [|t2 ts]; [congruence|]. destruct rest as [|t1 rest]; [now left|].
      right. exists t1. split; [rewrite E; apply in_app_iff; right; now left|]. split; [exact Hplace|reflexivity].
    + exists ((ct ++ before) ++ t0 :: new). split; [now apply Htail|]. now rewrite <- app_assoc.
Qed.
End Advice.
