(** The located models agree with Tokenizer.v and Parser.v. *)
From Verif Require Import Located ParserFacts ParserFacts2.

(** ** Tokens *)
Definition forget_lex (r : lexed_loc) : lexed_result :=
  match r with XLexOk ts => LexOk ts | XLexErr es => LexErr (map xl_kind es) | XLexLoop => LexLoop end.
Lemma ident_errors_forget name r : map xl_kind (ident_errors_loc name r) = ident_errors name.
Proof. destruct name as [|c name]; [reflexivity|]. cbn. now destruct (c =? underscore). Qed.
Lemma lex_step_forget u pal g i c rest : let '(ts, es, i', rest') := lex_step_loc u pal g i c rest in
  lex_step u i c rest = (ts, map xl_kind es, i', rest').
Proof.
  unfold lex_step_loc, lex_step. destruct (symbol_of c); [reflexivity|]. destruct (ident_start u c).
  - destruct (span (ident_continue u) rest) as [more rest']. destruct (keyword_of keywords (c :: more)); [reflexivity|].
    now rewrite ident_errors_forget.
  - destruct (ascii_is_digit c).
    + destruct (span ascii_is_digit rest) as [more rest']. now destruct (dec_value (c :: more) <? two64).
    + destruct (c =? quote).
      * destruct (span (fun d => negb (d =? quote)) rest) as [path rest']. now destruct rest'.
      * destruct (c =? hash).
        -- now destruct (read_comment u (i + 1) true [] (i + 1) rest) as [[[lines e] o] rest'].
        -- now destruct (is_whitespace u c).
Qed.
Lemma lex_forget u pal g fuel : forall i l,
  lex u fuel i l = match lex_loc u pal g fuel i l with Some (ts, es) => Some (ts, map xl_kind es) | None => None end.
Proof.
  induction fuel as [|fuel IH]; intros i [|c rest]; [reflexivity..|]. cbn [lex lex_loc].
  pose proof (lex_step_forget u pal g i c rest) as H. destruct (lex_step_loc u pal g i c rest) as [[[ts es] i'] rest'].
  rewrite H, IH. destruct (lex_loc u pal g fuel i' rest') as [[ts' es']|]; [|reflexivity]. now rewrite map_app.
Qed.
Theorem tokenize_forget u pal g s : tokenize u s = forget_lex (tokenize_loc u pal g s).
Proof.
  unfold tokenize, tokenize_loc. rewrite (lex_forget u pal g). destruct (lex_loc u pal g (length s) 0 s) as [[ts [|e es]]|]; reflexivity.
Qed.

(** ** Schemas *)
Definition forget {A B} (f : A -> B) (r : qres A) : pres B :=
  match r with QRet a es rest => PRet (f a) (map xp_kind es) rest | QPanic => PPanic | QLoop => PLoop end.
Lemma forget_bind A B A' B' (f : A -> A') (g : B -> B') (r : qres A) k k' :
  (forall a es rest, forget g (k a es rest) = k' (f a) (map xp_kind es) rest) ->
  forget g (qbind r k) = pbind (forget f r) k'.
Proof. intros H. destruct r as [a es rest| |]; [apply H|reflexivity..]. Qed.
Lemma forget_add A B (g : A -> B) es (r : qres A) : forget g (qadd es r) = padd (map xp_kind es) (forget g r).
Proof. destruct r; [|reflexivity..]. cbn. now rewrite map_app. Qed.

Section Forget.
Context (u : unicode) (stem : str -> option str) (pal : palette) (tokens : list token).
Lemma consume0_forget A B (g : A -> B) v err l k k' : (forall l', forget g (k l') = k' l') ->
  forget g (qconsume0 pal tokens v err l k) = consume0 v (g err) l k'.
Proof. intros H. unfold qconsume0, consume0. destruct (vis v l); [apply H|reflexivity]. Qed.
Lemma ident_forget A B (g : A -> B) what err l k k' : (forall i l', forget g (k i l') = k' i l') ->
  forget g (qconsume_ident pal tokens what err l k) = consume_ident (g err) l k'.
Proof. intros H. unfold qconsume_ident, consume_ident. destruct l as [|t l']; [reflexivity|]. destruct (tvar t); try reflexivity. apply H. Qed.
Lemma integer_forget A B (g : A -> B) what err l k k' : (forall i l', forget g (k i l') = k' i l') ->
  forget g (qconsume_integer pal tokens what err l k) = consume_integer (g err) l k'.
Proof. intros H. unfold qconsume_integer, consume_integer. destruct l as [|t l']; [reflexivity|]. destruct (tvar t); try reflexivity. apply H. Qed.
Lemma path_forget A B (g : A -> B) what err l k k' : (forall i l', forget g (k i l') = k' i l') ->
  forget g (qconsume_path pal tokens what err l k) = consume_path (g err) l k'.
Proof. intros H. unfold qconsume_path, consume_path. destruct l as [|t l']; [reflexivity|]. destruct (tvar t); try reflexivity. apply H. Qed.

Lemma type_forget l : forget (option_map bare_type) (qparse_type pal tokens l) = parse_type (total tokens) l.
Proof.
  induction l as [|t l IH]; [reflexivity|]. cbn [qparse_type parse_type].
  destruct (tvar t) eqn:Et; try reflexivity; try (destruct (total tokens <? 2); [reflexivity|];
    destruct ((total tokens - lenN (t :: l) <? total tokens - 2) && vis TkDot l);
    [ apply (ident_forget _ _ (option_map bare_type)); intros ? ?; apply (ident_forget _ _ (option_map bare_type)); reflexivity
    | apply (ident_forget _ _ (option_map bare_type)); reflexivity ]).
  rewrite <- IH. apply forget_bind. intros [ty|] es r; cbn [option_map]; [|reflexivity].
  rewrite forget_add. f_equal. apply (consume0_forget _ _ (option_map bare_type)). reflexivity.
Qed.
Lemma field_forget l : forget (option_map bare_field) (qparse_field pal tokens l) = parse_field (total tokens) l.
Proof.
  unfold qparse_field, parse_field. destruct (parse_comment l) as [comment l1]. destruct (parse_rule l1) as [r l2].
  apply (ident_forget _ _ (option_map bare_field)). intros name l3.
  assert (forall ty l4, forget (option_map bare_field) (qconsume0 pal tokens TkEquals None l4 (fun l5 => qconsume_integer pal tokens (txt "an index for the field") None l5 (fun index l6 =>
          QRet (Some (mkXField (span_range tokens l l6) comment r name ty index)) [] l6))) =
     consume0 TkEquals None l4 (fun l5 => consume_integer None l5 (fun index l6 => PRet (Some (mkSField comment r name (bare_type ty) index)) [] l6))) as Hfin.
  { intros ty l4. apply (consume0_forget _ _ (option_map bare_field)). intros l5. apply (integer_forget _ _ (option_map bare_field)). reflexivity. }
  destruct (vis TkColon l3); [|apply Hfin]. destruct (tl l3) as [|t3 l3'] eqn:E; [reflexivity|]. rewrite <- type_forget.
  apply forget_bind. intros [ty|] es r'; cbn [option_map]; [|reflexivity]. rewrite forget_add. f_equal. apply Hfin.
Qed.
Lemma fields_forget fuel : forall l, forget (map bare_field) (qparse_fields pal tokens fuel l) = parse_fields (total tokens) fuel l.
Proof.
  induction fuel as [|fuel IH]; intros [|t l]; try reflexivity.
  - cbn [qparse_fields parse_fields]. now destruct (vis TkDeleted (t :: l) || vis TkRightCurly (t :: l)).
  - cbn [qparse_fields parse_fields]. destruct (vis TkDeleted (t :: l) || vis TkRightCurly (t :: l)); [reflexivity|].
    rewrite <- field_forget. apply forget_bind. intros [f|] es r; cbn [option_map]; [|reflexivity].
    rewrite forget_add. f_equal. rewrite <- IH. apply forget_bind. reflexivity.
Qed.
Lemma deleted_forget l : forall acc, let '(s, es, r) := qparse_deleted pal tokens acc l in parse_deleted acc l = (s, map xp_kind es, r).
Proof.
  induction l as [|t l IH]; intros acc; [reflexivity|]. cbn [qparse_deleted parse_deleted]. destruct (tvar t); try reflexivity.
  destruct (set_insert n acc) as [acc' dup]. specialize (IH acc'). destruct (qparse_deleted pal tokens acc' l) as [[s es] r]. rewrite IH.
  rewrite map_app. now destruct dup.
Qed.
Lemma import_forget l : forget (option_map bare_named) (qparse_import u stem pal tokens l) = parse_import u stem l.
Proof.
  unfold qparse_import, parse_import. apply (consume0_forget _ _ (option_map bare_named)). intros l1.
  apply (path_forget _ _ (option_map bare_named)). intros path l2. destruct (vis TkAs l2).
  - apply (consume0_forget _ _ (option_map bare_named)). intros l3. apply (ident_forget _ _ (option_map bare_named)). reflexivity.
  - now destruct (stem path).
Qed.
Lemma map_insert_forget k i (m : list (ident * ximport)) : let (m', dup) := map_insert k i m in
  map_insert k (bare_import i) (map bare_named m) = (map bare_named m', dup).
Proof.
  induction m as [|[k' i'] m IH]; [reflexivity|]. cbn [map_insert map bare_named fst snd]. destruct (ident_cmp k k'); try reflexivity.
  destruct (map_insert k i m) as [m' dup]. now rewrite IH.
Qed.
Lemma imports_forget fuel : forall m l,
  forget (map bare_named) (qparse_imports u stem pal tokens fuel m l) = parse_imports u stem fuel (map bare_named m) l.
Proof.
  induction fuel as [|fuel IH]; intros m l; cbn [qparse_imports parse_imports]; destruct (vis TkImport l); try reflexivity.
  rewrite <- import_forget. apply forget_bind. intros [[name i]|] es r; cbn [option_map bare_named fst snd].
  - pose proof (map_insert_forget name i m) as H. destruct (map_insert name i m) as [m' dup]. rewrite H, forget_add, map_app, IH. now destruct dup.
  - now rewrite forget_add, IH.
Qed.
Lemma decl_forget l : forget (option_map bare_decl) (qparse_decl pal tokens l) = parse_decl (total tokens) l.
Proof.
  unfold qparse_decl, parse_decl. destruct (parse_comment l) as [comment l1]. destruct l1 as [|t l2]; [reflexivity|].
  assert (forall kind what, forget (option_map bare_decl) (qconsume_ident pal tokens (txt "a name for the " ++ what) None l2 (fun name l3 =>
          qconsume0 pal tokens TkLeftCurly None l3 (fun l4 =>
            qbind (qparse_fields pal tokens (length l4) l4) (fun fields es l5 =>
              let '(deleted, es', l6) :=
                if vis TkDeleted l5 then qparse_deleted pal tokens [] (tl l5) else ([], [], l5) in
              qadd (es ++ es') (qconsume0 pal tokens TkRightCurly None l6 (fun l7 =>
                QRet (Some (mkXDecl (span_range tokens l l7) comment kind name fields deleted)) [] l7)))))) =
        consume_ident None l2 (fun name l3 =>
          consume0 TkLeftCurly None l3 (fun l4 =>
            pbind (parse_fields (total tokens) (length l4) l4) (fun fields es l5 =>
              let '(deleted, es', l6) :=
                if vis TkDeleted l5 then parse_deleted [] (tl l5) else ([], [], l5) in
              padd (es ++ es') (consume0 TkRightCurly None l6 (fun l7 =>
                PRet (Some (mkSDecl comment kind name fields deleted)) [] l7)))))) as H.
  { intros kind what. apply (ident_forget _ _ (option_map bare_decl)). intros name l3. apply (consume0_forget _ _ (option_map bare_decl)). intros l4.
    rewrite <- fields_forget. apply forget_bind. intros fields es l5. destruct (vis TkDeleted l5).
    - pose proof (deleted_forget (tl l5) []) as Hd. destruct (qparse_deleted pal tokens [] (tl l5)) as [[s es'] r]. rewrite Hd, forget_add, map_app.
      f_equal. apply (consume0_forget _ _ (option_map bare_decl)). reflexivity.
    - rewrite forget_add, map_app. f_equal. apply (consume0_forget _ _ (option_map bare_decl)). reflexivity. }
  destruct (tvar t); try reflexivity; apply H.
Qed.
Lemma decls_forget fuel : forall l, forget (map bare_decl) (qparse_decls pal tokens fuel l) = parse_decls (total tokens) fuel l.
Proof.
  induction fuel as [|fuel IH]; intros [|t l]; try reflexivity. cbn [qparse_decls parse_decls].
  rewrite <- decl_forget. apply forget_bind. intros [d|] es r; cbn [option_map]; [|reflexivity].
  rewrite forget_add. f_equal. rewrite <- IH. apply forget_bind. reflexivity.
Qed.
Definition forget_parse (r : parsed_loc) : parsed :=
  match r with XParseOk s => ParseOk (bare_schema s) | XParseErr es => ParseErr (map xp_kind es) | XParsePanic => ParsePanic | XParseLoop => ParseLoop end.
Theorem parse_forget : parse u stem tokens = forget_parse (parse_loc u stem pal tokens).
Proof.
  unfold parse, parse_loc.
  assert (parse_schema u stem tokens = forget bare_schema (qparse_schema u stem pal tokens)) as ->.
  { unfold parse_schema, qparse_schema. fold (total tokens). destruct (parse_schema_comment tokens) as [comment l1].
    symmetry. change (@nil (ident * simport)) with (map bare_named []). rewrite <- imports_forget. apply forget_bind. intros imports es l2.
    rewrite forget_add. f_equal. rewrite <- decls_forget. apply forget_bind. reflexivity. }
  destruct (qparse_schema u stem pal tokens) as [s [|e es] [|t l]| |]; reflexivity.
Qed.
End Forget.
