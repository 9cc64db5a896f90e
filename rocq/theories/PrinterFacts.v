(** Lemmas about the schema printer: what the printed text consists of. *)
From Verif Require Import TokenFacts2 ParserFacts2 IdentFacts NamesFacts.
From Verif Require Export PrintSpec.

Section Printer.
Context (u : unicode) (Hu : ascii_agrees u) (stem : str -> option str).

(** ** Pieces of text and their tokens *)
Definition lexes (text : str) (vs : list tvariant) (rest : str) : Prop :=
  forall i ts', lexed u (i + blen text) rest ts' ->
    exists ts, lexed u i (text ++ rest) (ts ++ ts') /\ vars ts = vs.
Lemma lexes_nil rest : lexes [] [] rest.
Proof. intros i ts' H. exists []. split; [|reflexivity]. now rewrite blen_nil, N.add_0_r in H. Qed.
Lemma lexes_app a b va vb rest : lexes a va (b ++ rest) -> lexes b vb rest -> lexes (a ++ b) (va ++ vb) rest.
Proof.
  intros Ha Hb i ts' H. rewrite blen_app, N.add_assoc in H. destruct (Hb _ _ H) as (tb & Hb1 & Hb2).
  destruct (Ha _ _ Hb1) as (ta & Ha1 & Ha2). exists (ta ++ tb). rewrite <- !app_assoc. split; [exact Ha1|].
  unfold vars in *. now rewrite map_app, Ha2, Hb2.
Qed.
Lemma lexes_white a rest : whites u a -> lexes a [] rest.
Proof. intros Ha i ts' H. exists []. split; [|reflexivity]. cbn [app]. now apply lexed_whites. Qed.
Lemma lexes_token a v rest : lexeme u a v rest -> lexes a [v] rest.
Proof.
  intros Ha i ts' H. exists [mkToken i (i + lenN (utf8_encode a)) v]. split; [|reflexivity].
  now apply lexed_token.
Qed.
Lemma lexes_cons a b v vb rest : lexes a [v] (b ++ rest) -> lexes b vb rest -> lexes (a ++ b) (v :: vb) rest.
Proof. intros Ha Hb. change (v :: vb) with ([v] ++ vb). now apply lexes_app. Qed.
Lemma lexes_skip a b vb rest : whites u a -> lexes b vb rest -> lexes (a ++ b) vb rest.
Proof. intros Ha Hb. change vb with ([] ++ vb). apply lexes_app; [now apply lexes_white|exact Hb]. Qed.
Lemma lexes_end a b va rest : whites u b -> lexes a va (b ++ rest) -> lexes (a ++ b) va rest.
Proof. intros Hb Ha. rewrite <- (app_nil_r va). apply lexes_app; [exact Ha|now apply lexes_white]. Qed.

Lemma white_of c : is_ascii c = true -> ascii_is_white c = true -> is_whitespace u c = true.
Proof. intros H1 H2. now rewrite (agrees_white u Hu). Qed.
Lemma space_white : whites u [32].
Proof. constructor; [now apply white_of|constructor]. Qed.
Lemma lf_white : whites u lf.
Proof. constructor; [now apply white_of|constructor]. Qed.
Lemma indent_white n : whites u (indent n).
Proof. apply Forall_forall. intros c H. apply repeat_spec in H. subst. now apply white_of. Qed.
Lemma indent_blank n : blank u (indent n).
Proof. apply Forall_forall. intros c H. apply repeat_spec in H. subst. split; [now apply white_of|discriminate]. Qed.

(** A following character that cannot continue a name. *)
Definition stops (c : N) : bool :=
  is_ascii c && negb (ascii_is_letter c) && negb (ascii_is_digit c) && negb (c =? 95).
Lemma stops_name c rest : stops c = true -> not_followed_by (name_char u) (c :: rest).
Proof.
  unfold stops. rewrite !andb_true_iff, !negb_true_iff. intros [[[H1 H2] H3] H4] [H|H].
  - rewrite (agrees_alnum u Hu), H2, H3 in H by exact H1. discriminate.
  - subst. discriminate.
Qed.
Lemma stops_digit c rest : stops c = true -> not_followed_by (fun c => 48 <= c <= 57) (c :: rest).
Proof. unfold stops, ascii_is_digit. rewrite !andb_true_iff, !negb_true_iff. intros [[[H1 H2] H3] H4]. cbn. lia. Qed.
Lemma keyword_lexes k v rest : In (k, v) reserved -> not_followed_by (name_char u) rest -> lexes k [v] rest.
Proof. intros H1 H2. apply lexes_token. now apply lexeme_keyword. Qed.
Lemma symbol_lexes c v rest : In (c, v) symbols -> lexes [c] [v] rest.
Proof. intros H. apply lexes_token. now apply lexeme_symbol. Qed.

(** ** Names *)
Lemma chars_names s : ident_chars s -> Forall (name_char u) s.
Proof.
  intros H. eapply Forall_impl; [|exact H]. cbv beta. intros c Hc.
  destruct (c =? 95) eqn:E; [right; lia|]. left.
  rewrite (agrees_alnum u Hu).
  - destruct Hc as [->|[->|Hc]]; [reflexivity|apply orb_true_r|unfold underscore in Hc; lia].
  - unfold is_ascii, ascii_is_letter, ascii_is_upper, ascii_is_lower, ascii_is_digit, underscore in *. lia.
Qed.
Lemma name_lexes s rest : ident_chars s -> starts_with_letter s -> ~ In s (map fst reserved) ->
  not_followed_by (name_char u) rest -> lexes s [TkIdentifier (ident_from u s)] rest.
Proof.
  intros Hc Hs Hk Hr. destruct s as [|c s]; [destruct Hs|]. apply lexes_token. apply lexeme_ident.
  - apply (letter_alpha u Hu). exact Hs.
  - apply chars_names. now inversion Hc.
  - exact Hr.
  - intros v Hv. apply Hk. change (c :: s) with (fst (c :: s, v)). now apply in_map.
Qed.
Definition snake_again (i : ident) : ident := ident_from u (snake_case i).
Definition pascal_again (i : ident) : ident := ident_from u (pascal_case u i).
Lemma snake_lexes i rest : snake_printable u i -> not_followed_by (name_char u) rest ->
  lexes (snake_case i) [TkIdentifier (snake_again i)] rest.
Proof.
  intros [(E & H1 & H2) H3] Hr. apply name_lexes; auto; rewrite E.
  - apply (converted_ident_chars u Hu Snake None _ H1).
  - apply (converted_starts u Hu Snake None _ H1 H2).
Qed.
Lemma pascal_lexes i rest : pascal_printable u i -> not_followed_by (name_char u) rest ->
  lexes (pascal_case u i) [TkIdentifier (pascal_again i)] rest.
Proof.
  intros [(E & H1 & H2) [_ H3]] Hr. apply name_lexes; auto; rewrite E.
  - apply (converted_ident_chars u Hu Pascal None _ H1).
  - apply (converted_starts u Hu Pascal None _ H1 H2).
Qed.
Lemma snake_again_same i : ascii_name u i -> snake_case (snake_again i) = snake_case i.
Proof. intros (E & H1 & _). unfold snake_again. rewrite E. apply (snake_same_ident u Hu). now apply ident_chars_asciis. Qed.
Lemma pascal_again_same i : pascal_printable u i -> snake_case (pascal_again i) = snake_case i.
Proof.
  intros [(E & H1 & _) [H2 _]]. unfold pascal_again. rewrite E. apply (pascal_same_ident u Hu).
  - now apply ident_chars_asciis.
  - now apply (words_letters u Hu).
Qed.

(** ** Numbers *)
Lemma digits_spec fuel : forall n acc, n < 2 ^ N.of_nat fuel ->
  (0 < fuel)%nat -> exists ds, decimal_digits fuel n acc = ds ++ acc /\ decimal ds n /\ ds <> [].
Proof.
  induction fuel as [|fuel IH]; intros n acc Hn Hf; [lia|]. cbn [decimal_digits]. cbv zeta.
  pose proof (N.div_mod n 10 ltac:(lia)) as Hd. pose proof (N.mod_lt n 10 ltac:(lia)) as Hm.
  destruct (n / 10 =? 0) eqn:E.
  - exists [48 + n mod 10]. split; [reflexivity|]. split; [|discriminate].
    assert (n = 10 * 0 + n mod 10) as Hn' by lia. rewrite Hn' at 2. apply (decimal_snoc []); [constructor|lia].
  - rewrite Nat2N.inj_succ, N.pow_succ_r' in Hn.
    destruct (IH (n / 10) (48 + n mod 10 :: acc)) as (ds & H1 & H2 & H3); [lia| |].
    + destruct fuel; [|lia]. cbn in Hn. lia.
    + exists (ds ++ [48 + n mod 10]). rewrite <- app_assoc. split; [exact H1|]. split; [|now destruct ds].
      rewrite Hd at 2. now apply decimal_snoc.
Qed.
Lemma number_decimal n : decimal (print_number n) n /\ print_number n <> [].
Proof.
  unfold print_number. destruct (digits_spec (S (N.to_nat (N.log2 n))) n []) as (ds & H1 & H2 & H3); [|lia|].
  - rewrite Nat2N.inj_succ, N2Nat.id. destruct (N.eq_dec n 0) as [->|H0]; [reflexivity|]. apply N.log2_spec. lia.
  - rewrite H1, app_nil_r. auto.
Qed.
Lemma number_lexes n rest : n < 2 ^ 64 -> not_followed_by (fun c => 48 <= c <= 57) rest ->
  lexes (print_number n) [TkInteger n] rest.
Proof. intros Hn Hr. destruct (number_decimal n). apply lexes_token. now apply lexeme_integer. Qed.

(** ** Types *)
Fixpoint type_again (t : sty) : sty :=
  match t with
  | SyArray t' => SyArray (type_again t')
  | SyCustom None n => SyCustom None (pascal_again n)
  | SyCustom (Some i) n => SyCustom (Some (snake_again i)) (pascal_again n)
  | _ => t
  end.
Ltac kw := apply keyword_lexes; [cbn; tauto|].
Lemma type_lexes t : printable_type u t -> forall rest, not_followed_by (name_char u) rest ->
  exists vs, lexes (print_type u t) vs rest /\ type_tokens (type_again t) vs.
Proof.
  induction t as [t IH| | |[i|] n| | | | |]; intros Hp rest Hr; cbn [print_type type_again].
  - destruct (IH Hp (93 :: rest)) as (vs & H1 & H2); [now apply stops_name|].
    exists (TkLeftSquare :: vs ++ [TkRightSquare]). split; [|now constructor].
    apply lexes_cons; [apply symbol_lexes; cbn; tauto|]. apply lexes_app; [exact H1|apply symbol_lexes; cbn; tauto].
  - exists [TkBool]. split; [kw; exact Hr|constructor].
  - exists [TkBytes]. split; [kw; exact Hr|constructor].
  - destruct Hp as [Hn Hi]. exists [TkIdentifier (snake_again i); TkDot; TkIdentifier (pascal_again n)].
    split; [|constructor]. apply lexes_cons; [apply snake_lexes; [exact Hi|now apply stops_name]|].
    apply lexes_cons; [apply symbol_lexes; cbn; tauto|]. now apply pascal_lexes.
  - exists [TkIdentifier (pascal_again n)]. split; [|constructor]. apply pascal_lexes; [apply Hp|exact Hr].
  - exists [TkF64]. split; [kw; exact Hr|constructor].
  - exists [TkS64]. split; [kw; exact Hr|constructor].
  - exists [TkString]. split; [kw; exact Hr|constructor].
  - exists [TkU64]. split; [kw; exact Hr|constructor].
  - exists [TkUnit]. split; [kw; exact Hr|constructor].
Qed.

(** ** Comments *)
Context (wrap : N -> str -> list str) (Hwrap : makes_lines wrap).
Fixpoint comment_lines (width : N) (first : bool) (ps : list str) : list str :=
  match ps with
  | [] => []
  | p :: ps' => (if first then [] else [[]]) ++ map (cons 32) (wrap width p) ++ comment_lines width false ps'
  end.
Definition width_at (ind : nat) : N := 79 - N.of_nat ind - 2.
Definition print_line (ind : nat) (l : str) : str := indent ind ++ 35 :: l ++ lf.
Lemma print_comment_lines ind ps : forall first,
  print_comment_from wrap ind first ps = flat_map (print_line ind) (comment_lines (width_at ind) first ps).
Proof.
  induction ps as [|p ps IH]; intros first; [reflexivity|]. cbn [print_comment_from comment_lines].
  rewrite !flat_map_app. f_equal; [destruct first; [reflexivity|]; cbn [flat_map]; rewrite app_nil_r; reflexivity|]. f_equal; [|apply IH].
  unfold print_paragraph, width_at. induction (wrap (79 - N.of_nat ind - 2) p) as [|l ls IHl]; [reflexivity|].
  cbn [flat_map map]. rewrite IHl. unfold print_line. rewrite <- !app_assoc. cbn [app]. now rewrite <- !app_assoc.
Qed.
Lemma comment_lines_ok width ps : forall first, Forall no_newline (comment_lines width first ps).
Proof.
  induction ps as [|p ps IH]; intros first; [constructor|]. cbn [comment_lines]. apply Forall_app. split.
  - destruct first; [constructor|]. constructor; [intros []|constructor].
  - apply Forall_app. split; [|apply IH]. apply Forall_forall. intros l Hl. apply in_map_iff in Hl as (l' & <- & Hl').
    pose proof (Hwrap width p) as H. rewrite Forall_forall in H. specialize (H l' Hl').
    intros [E|Hin]; [discriminate E|]. now apply H.
Qed.
Lemma lines_body ind ls : forall l, no_newline l -> Forall no_newline ls ->
  exists body, flat_map (print_line ind) (l :: ls) = indent ind ++ 35 :: body ++ lf /\ comment_body u (l :: ls) body.
Proof.
  induction ls as [|l2 ls IH]; intros l Hl Hls.
  - exists l. split; [cbn [flat_map]; rewrite app_nil_r; reflexivity|now constructor].
  - inversion Hls as [|? ? H2 Hls']; subst. destruct (IH l2 H2 Hls') as (body & E & Hb).
    exists (l ++ 10 :: indent ind ++ 35 :: body). split.
    + cbn [flat_map]. cbn [flat_map] in E. rewrite E. unfold print_line, lf. do 3 (cbn [app]; repeat rewrite <- app_assoc). reflexivity.
    + constructor; [exact Hl|apply indent_blank|exact Hb].
Qed.
(** The comment as it is read back. *)
Definition comment_again (ind : nat) (ps : list str) : list str :=
  paragraphs u (comment_lines (width_at ind) true ps).
Lemma print_comment_cases ind ps :
  (print_comment wrap ind ps = [] /\ comment_again ind ps = []) \/
  exists body, print_comment wrap ind ps = indent ind ++ (35 :: body) ++ lf /\
    forall rest, comment_ends u rest -> lexeme u (35 :: body) (TkComment (comment_again ind ps)) rest.
Proof.
  unfold print_comment, comment_again. rewrite print_comment_lines.
  pose proof (comment_lines_ok (width_at ind) ps true) as H.
  destruct (comment_lines (width_at ind) true ps) as [|l ls]; [now left|]. right.
  inversion H as [|? ? H1 H2]; subst. destruct (lines_body ind ls l H1 H2) as (body & E & Hb). exists body. rewrite E.
  split; [reflexivity|]. intros rest Hr. apply lexeme_comment with (lines := l :: ls); [exact Hb| |exact Hr].
  now apply paragraphs_iff.
Qed.
(** The text after a comment. *)
Definition after_comment (rest : str) : Prop := forall ws r, blank u ws -> rest <> ws ++ 35 :: r.
Lemma after_comment_stop c rest : c <> 35 -> is_whitespace u c = false \/ c = 10 -> after_comment (c :: rest).
Proof.
  intros H1 H2. apply (no_hash_stop u); [exact H1|]. destruct H2 as [->| ->]; [reflexivity|apply andb_false_r].
Qed.
Lemma after_comment_indent n rest : after_comment rest -> after_comment (indent n ++ rest).
Proof.
  intros H. induction n as [|n IH]; [exact H|]. cbn [indent repeat app]. apply (no_hash_cons u Hu); [|discriminate|exact IH].
  now apply white_of.
Qed.
Lemma comment_lexes ind ps rest : after_comment rest ->
  exists vs, lexes (print_comment wrap ind ps) vs rest /\ comment_tokens (comment_again ind ps) vs.
Proof.
  intros Hr. destruct (print_comment_cases ind ps) as [[-> ->]|(body & -> & H)].
  - exists []. split; [apply lexes_nil|constructor].
  - exists [TkComment (comment_again ind ps)]. split; [|constructor].
    apply lexes_skip; [apply indent_white|]. apply lexes_end; [apply lf_white|]. apply lexes_token, H.
    right. exists rest. split; [reflexivity|exact Hr].
Qed.
(** Comments whose paragraphs are broken only at spaces are read back unchanged. *)
Lemma trimmed_tidy l : tidy u l -> trimmed u (32 :: l) l.
Proof.
  intros (H1 & H2 & H3). exists [32], []. rewrite app_nil_r. split; [reflexivity|]. split; [apply space_white|].
  split; [constructor|]. right. auto.
Qed.
Lemma comment_again_clean ind ps : Forall (wraps_cleanly u wrap (width_at ind)) ps -> comment_again ind ps = ps.
Proof.
  intros H. unfold comment_again. symmetry. apply paragraphs_iff.
  assert (forall first, exists tls, Forall2 (trimmed u) (comment_lines (width_at ind) first ps) tls /\
            blocks tls (map (wrap (width_at ind)) ps) /\ (first = false -> tls = [] \/ exists tls', tls = [] :: tls')) as HH.
  { induction H as [|p ps (P1 & P2 & P3) Hps IH]; intros first.
    - exists []. repeat split; [constructor|constructor|now left].
    - destruct (IH false) as (tls & T1 & T2 & T3). specialize (T3 eq_refl).
      assert (Forall2 (trimmed u) (map (cons 32) (wrap (width_at ind) p)) (wrap (width_at ind) p)) as T0.
      { clear - P2 Hu. induction P2 as [|l ls Hl Hls IH]; [constructor|]. cbn [map]. constructor; [now apply trimmed_tidy|exact IH]. }
      assert (blocks (wrap (width_at ind) p ++ tls) (map (wrap (width_at ind)) (p :: ps))) as T4.
      { cbn [map]. constructor; [exact P1| |exact T3|exact T2]. eapply Forall_impl; [|exact P2]. now intros l []. }
      cbn [comment_lines]. destruct first.
      + exists (wrap (width_at ind) p ++ tls). split; [cbn [app]; now apply Forall2_app|]. split; [exact T4|discriminate].
      + exists ([] :: wrap (width_at ind) p ++ tls). split; [|split].
        * cbn [app]. constructor; [exists [], []; repeat split; try constructor; reflexivity|now apply Forall2_app].
        * now constructor.
        * intros _. right. eauto. }
  destruct (HH true) as (tls & T1 & T2 & _). exists tls, (map (wrap (width_at ind)) ps). split; [exact T1|]. split; [exact T2|].
  rewrite map_map. clear - H. induction H as [|p ps (P1 & P2 & P3) Hps IH]; [reflexivity|]. cbn [map]. now rewrite P3, <- IH.
Qed.

(** ** Fields *)
Definition field_again (f : sfield) : sfield :=
  mkSField (comment_again 4 (sf_comment f)) (sf_rule f) (snake_again (sf_name f)) (type_again (sf_type f)) (sf_index f).
Lemma starts_stop s rest : starts_with_letter s -> after_comment (s ++ rest).
Proof.
  destruct s as [|c s]; [intros []|]. intros H. cbn [starts_with_letter app] in *. apply after_comment_stop.
  - intros ->. discriminate H.
  - left. rewrite (agrees_white u Hu); unfold is_ascii, ascii_is_white, ascii_is_letter, ascii_is_lower, ascii_is_upper in *; lia.
Qed.
Lemma snake_starts i : snake_printable u i -> starts_with_letter (snake_case i).
Proof. intros [(E & H1 & H2) _]. rewrite E. apply (converted_starts u Hu Snake None _ H1 H2). Qed.
Lemma field_lexes f rest : printable_field u f -> sf_index f < 2 ^ 64 ->
  exists vs, lexes (print_field u wrap f) vs rest /\ field_tokens (field_again f) vs.
Proof.
  intros [Hn Ht] Hi. unfold print_field. destruct f as [c r n t i]. cbn [sf_comment sf_rule sf_name sf_type sf_index] in *.
  set (tail := txt " = " ++ print_number i ++ lf).
  match goal with |- exists vs, lexes (_ ++ _ ++ _ ++ ?x ++ _) _ _ /\ _ => set (ann := x) end.
  set (rl := match r with Asymmetric => indent 4 ++ txt "asymmetric " | Optional => indent 4 ++ txt "optional " | Required => indent 4 end).
  assert (lexes tail [TkEquals; TkInteger i] rest) as Htail.
  { unfold tail. change (txt " = ") with ([32] ++ [61] ++ [32]). rewrite <- !app_assoc.
    apply lexes_skip; [apply space_white|]. apply lexes_cons; [apply symbol_lexes; cbn; tauto|].
    apply lexes_skip; [apply space_white|]. apply lexes_end; [apply lf_white|].
    apply number_lexes; [exact Hi|]. now apply stops_digit. }
  assert (exists vs, lexes ann vs (tail ++ rest) /\ annotation_tokens (type_again t) vs) as (avs & Ha1 & Ha2).
  { assert (t = SyUnit \/ ann = txt ": " ++ print_type u t) as [Et|Ea] by (unfold ann; destruct t; auto).
    - exists []. unfold ann. rewrite Et. split; [apply lexes_nil|constructor].
    - rewrite Ea. destruct (type_lexes t Ht (tail ++ rest)) as (vs & H1 & H2); [now apply stops_name|].
      exists (TkColon :: vs). split; [|now constructor]. change (txt ": ") with ([58] ++ [32]). rewrite <- app_assoc.
      apply lexes_cons; [apply symbol_lexes; cbn; tauto|]. apply lexes_skip; [apply space_white|exact H1]. }
  assert (not_followed_by (name_char u) ((ann ++ tail) ++ rest)) as Hstop.
  { unfold ann. destruct t; now apply stops_name. }
  assert (exists vs, lexes rl vs ((snake_case n ++ ann ++ tail) ++ rest) /\ rule_tokens r vs) as (rvs & Hr1 & Hr2).
  { unfold rl. destruct r; eexists; (split; [|constructor]).
    - change (txt "asymmetric ") with (txt "asymmetric" ++ [32]). apply lexes_skip; [apply indent_white|].
      apply lexes_end; [apply space_white|]. kw. now apply stops_name.
    - change (txt "optional ") with (txt "optional" ++ [32]). apply lexes_skip; [apply indent_white|].
      apply lexes_end; [apply space_white|]. kw. now apply stops_name.
    - apply lexes_white, indent_white. }
  destruct (comment_lexes 4 c ((rl ++ snake_case n ++ ann ++ tail) ++ rest)) as (cvs & Hc1 & Hc2).
  { unfold rl. pose proof (snake_starts n Hn) as Hs.
    destruct r; rewrite <- !app_assoc; apply after_comment_indent; try (now apply starts_stop);
      (apply after_comment_stop; [discriminate|left; now rewrite (agrees_white u Hu)]). }
  exists (cvs ++ rvs ++ [TkIdentifier (snake_again n)] ++ avs ++ [TkEquals; TkInteger i]).
  split; [|now apply field_tokens_intro].
  apply lexes_app; [exact Hc1|]. apply lexes_app; [exact Hr1|]. apply lexes_app; [now apply snake_lexes|].
  apply lexes_app; [exact Ha1|exact Htail].
Qed.
Lemma fields_lexes fs : Forall (printable_field u) fs -> Forall (fun f => sf_index f < 2 ^ 64) fs ->
  forall first prev rest, exists vs, lexes (print_fields u wrap first prev fs) vs rest /\
    many field_tokens (map field_again fs) vs.
Proof.
  induction fs as [|f fs IH]; intros Hp Hi first prev rest.
  - exists []. split; [apply lexes_nil|constructor].
  - inversion Hp as [|? ? P1 P2]; subst. inversion Hi as [|? ? I1 I2]; subst. cbn [print_fields map].
    destruct (IH P2 I2 false (is_nonempty (sf_comment f)) rest) as (vs & H1 & H2).
    destruct (field_lexes f (print_fields u wrap false (is_nonempty (sf_comment f)) fs ++ rest) P1 I1) as (fv & F1 & F2).
    exists (fv ++ vs). split; [|now constructor].
    apply lexes_skip; [|now apply lexes_app]. destruct (_ && _); [apply lf_white|constructor].
Qed.
Lemma deleted_lexes ns : Forall (fun n => n < 2 ^ 64) ns -> forall rest, rest <> [] -> stops (hd 0 rest) = true ->
  lexes (flat_map (fun i => txt " " ++ print_number i) ns) (map TkInteger ns) rest.
Proof.
  intros H rest Hr1 Hr2. induction H as [|n ns Hn Hns IH]; [apply lexes_nil|]. cbn [flat_map map]. rewrite <- app_assoc.
  apply lexes_skip; [apply space_white|]. apply lexes_cons; [|exact IH]. apply number_lexes; [exact Hn|].
  destruct ns as [|m ns]; cbn [flat_map app].
  - destruct rest as [|c rest]; [congruence|]. now apply stops_digit.
  - rewrite <- !app_assoc. now apply stops_digit.
Qed.

(** ** Declarations *)
Definition decl_again (d : sdecl) : sdecl :=
  mkSDecl (comment_again 0 (sd_comment d)) (sd_kind d) (pascal_again (sd_name d)) (map field_again (sd_fields d)) (sd_deleted d).
Definition decl_ok (d : sdecl) : Prop :=
  printable_decl u d /\ Forall (fun f => sf_index f < 2 ^ 64) (sd_fields d) /\
  Forall (fun n => n < 2 ^ 64) (sd_deleted d) /\ StronglySorted N.lt (sd_deleted d).
Lemma sorted_nodup l : StronglySorted N.lt l -> NoDup l.
Proof.
  induction 1 as [|n l H1 IH H2]; constructor; [|exact IH]. intros Hin. rewrite Forall_forall in H2. specialize (H2 n Hin). lia.
Qed.
Definition decl_body (d : sdecl) : str :=
  match sd_kind d with SkStruct => txt "struct" | SkChoice => txt "choice" end ++
  txt " " ++ pascal_case u (sd_name d) ++ txt " {" ++ lf ++
  print_fields u wrap true false (sd_fields d) ++
  (if is_nonempty (sd_fields d) && is_nonempty (sd_deleted d) then lf else []) ++
  (if is_nonempty (sd_deleted d)
   then indent 4 ++ txt "deleted" ++ flat_map (fun i => txt " " ++ print_number i) (sd_deleted d) ++ lf else []) ++
  txt "}" ++ lf.
Lemma decl_body_lexes d rest : decl_ok d ->
  exists fts ds, lexes (decl_body d)
      ([kind_token (sd_kind d); TkIdentifier (pascal_again (sd_name d)); TkLeftCurly] ++ fts ++ ds ++ [TkRightCurly]) rest /\
    many field_tokens (map field_again (sd_fields d)) fts /\ deleted_tokens (sd_deleted d) ds.
Proof.
  intros ([Hn Hf] & Hi & Hd & Hs). unfold decl_body.
  set (del := if is_nonempty (sd_deleted d) then indent 4 ++ txt "deleted" ++ flat_map (fun i => txt " " ++ print_number i) (sd_deleted d) ++ lf else []).
  set (tail := txt "}" ++ lf).
  assert (lexes tail [TkRightCurly] rest) as Htail
    by (apply lexes_end; [apply lf_white|]; apply symbol_lexes; cbn; tauto).
  assert (exists ds, lexes del ds (tail ++ rest) /\ deleted_tokens (sd_deleted d) ds) as (ds & Hd1 & Hd2).
  { unfold del. remember (sd_deleted d) as ns eqn:En. destruct ns as [|m ns]; cbn [is_nonempty].
    - exists []. split; [apply lexes_nil|constructor].
    - exists (TkDeleted :: map TkInteger (m :: ns)). split.
      + apply lexes_skip; [apply indent_white|]. apply lexes_cons; [kw; now apply stops_name|].
        apply lexes_end; [apply lf_white|]. now apply deleted_lexes.
      + constructor; [now apply sorted_nodup|reflexivity|exact Hs]. }
  set (gap := if is_nonempty (sd_fields d) && is_nonempty (sd_deleted d) then lf else []).
  destruct (fields_lexes (sd_fields d) Hf Hi true false ((gap ++ del ++ tail) ++ rest)) as (fts & F1 & F2).
  exists fts, ds. split; [|auto]. cbn [app].
  apply lexes_cons; [destruct (sd_kind d); cbn [kind_token]; kw; now apply stops_name|].
  apply lexes_skip; [apply space_white|]. apply lexes_cons; [apply pascal_lexes; [exact Hn|now apply stops_name]|].
  change (txt " {") with ([32] ++ [123]). rewrite <- app_assoc. apply lexes_skip; [apply space_white|].
  apply lexes_cons; [apply symbol_lexes; cbn; tauto|]. apply lexes_skip; [apply lf_white|].
  apply lexes_app; [exact F1|]. apply lexes_skip; [unfold gap; destruct (_ && _); [apply lf_white|constructor]|].
  apply lexes_app; [exact Hd1|exact Htail].
Qed.
Lemma decl_body_starts d rest : exists c r, decl_body d ++ rest = c :: r /\ is_whitespace u c = false /\ c <> 35.
Proof.
  unfold decl_body. destruct (sd_kind d); do 2 eexists; (split; [reflexivity|]); (split; [now rewrite (agrees_white u Hu)|discriminate]).
Qed.
Lemma lexed_first i c s t ts : lexed u i (c :: s) (t :: ts) -> is_whitespace u c = false -> tstart t = i.
Proof.
  intros H Hc. remember (c :: s) as cs eqn:E. remember (t :: ts) as tts eqn:Et. destruct H as [i|i c' s' ts' Hc' H|i text v rest ts' Hl H].
  - discriminate Et.
  - injection E as -> _. congruence.
  - injection Et as <- _. reflexivity.
Qed.
Lemma lexed_empty i ts : lexed u i [] ts -> ts = [].
Proof.
  intros H. remember ([] : str) as z eqn:Ez. destruct H as [i|i c s ts Hc H|i text v rest ts Hl H]; [reflexivity|discriminate|].
  apply app_eq_nil in Ez as [-> _]. now apply lexeme_nonempty in Hl.
Qed.
(** A comment of a declaration is directly followed by the declaration. *)
Definition glued (ts : list token) : Prop :=
  forall t r ps, ts = t :: r -> tvar t = TkComment ps -> belongs_to_next t r.
Lemma decl_lexed d i rest ts' : decl_ok d -> lexed u (i + blen (print_decl u wrap d)) rest ts' ->
  exists ts, lexed u i (print_decl u wrap d ++ rest) (ts ++ ts') /\ decl_tokens (decl_again d) (vars ts) /\ glued (ts ++ ts') /\
    ts <> [].
Proof.
  intros Hd H. change (print_decl u wrap d) with (print_comment wrap 0 (sd_comment d) ++ decl_body d) in *.
  destruct (decl_body_lexes d rest Hd) as (fts & ds & H1 & H2 & H3).
  rewrite blen_app, N.add_assoc in H. destruct (H1 _ _ H) as (tb & Hb1 & Hb2).
  destruct (decl_body_starts d rest) as (c & r & Ec & Hc1 & Hc2).
  destruct tb as [|t0 tb]; [discriminate Hb2|].
  assert (is_decl_token (tvar t0)) as Ht0
    by (cbn [vars map] in Hb2; injection Hb2 as E0 _; rewrite E0; unfold is_decl_token; destruct (sd_kind d); cbn; auto).
  assert (tstart t0 = i + blen (print_comment wrap 0 (sd_comment d))) as Hst
    by (rewrite Ec in Hb1; now apply (lexed_first _ _ _ _ _ Hb1)).
  destruct (print_comment_cases 0 (sd_comment d)) as [[E1 E2]|(body & E1 & Hb)].
  - rewrite E1, blen_nil, N.add_0_r in *. exists (t0 :: tb). split; [exact Hb1|]. split; [|split].
    + rewrite Hb2. unfold decl_again. rewrite E2. change (kind_token (sd_kind d) :: ?x) with ([] ++ kind_token (sd_kind d) :: x).
      apply (decl_tokens_intro [] _ _ _ _ []); [constructor|exact H2|exact H3].
    + intros t r0 ps [= <- _] Ht. destruct Ht0 as [Ht0|Ht0]; congruence.
    + discriminate.
  - assert (comment_ends u (lf ++ decl_body d ++ rest)) as Hends.
    { right. exists (decl_body d ++ rest). split; [reflexivity|]. rewrite Ec. apply after_comment_stop; auto. }
    set (tc := mkToken i (i + blen (35 :: body)) (TkComment (comment_again 0 (sd_comment d)))).
    exists (tc :: t0 :: tb). rewrite E1 in *. cbn [indent repeat app] in *. split; [|split; [|split]].
    + match goal with |- lexed _ _ ?x _ => replace x with ((35 :: body) ++ lf ++ decl_body d ++ rest)
        by (cbn [app]; now rewrite <- !app_assoc) end. unfold tc.
      apply (lexed_token u i (35 :: body)); [now apply Hb|]. apply lexed_whites; [apply lf_white|].
      change (35 :: body ++ lf) with ((35 :: body) ++ lf) in Hb1. rewrite blen_app, N.add_assoc in Hb1. exact Hb1.
    + change (vars (tc :: t0 :: tb)) with ([TkComment (comment_again 0 (sd_comment d))] ++ vars (t0 :: tb)).
      rewrite Hb2. apply decl_tokens_intro; [constructor|exact H2|exact H3].
    + intros t r0 ps [= <- Er] _. exists t0, (tb ++ ts'). split; [now symmetry|]. split; [exact Ht0|].
      rewrite Hst. unfold tc. cbn [tend]. change (35 :: body ++ lf) with ((35 :: body) ++ lf). rewrite blen_app.
      change (blen lf) with 1. lia.
    + discriminate.
Qed.
Lemma decls_lexed ds : Forall decl_ok ds -> forall skip i,
  exists ts, lexed u i (print_decls u wrap skip ds) ts /\ many decl_tokens (map decl_again ds) (vars ts) /\ glued ts.
Proof.
  induction ds as [|d ds IH]; intros H skip i.
  - exists []. split; [constructor|]. split; [constructor|]. intros t r ps [=].
  - inversion H as [|? ? H1 H2]; subst. cbn [print_decls map].
    set (pre := if skip then [] else lf).
    destruct (IH H2 false (i + blen pre + blen (print_decl u wrap d))) as (ts & T1 & T2 & _).
    destruct (decl_lexed d (i + blen pre) (print_decls u wrap false ds) ts H1 T1) as (td & D1 & D2 & D3 & _).
    exists (td ++ ts). split; [|split].
    + apply lexed_whites; [unfold pre; destruct skip; [constructor|apply lf_white]|exact D1].
    + unfold vars in *. rewrite map_app. now constructor.
    + exact D3.
Qed.

(** ** Imports *)
Definition import_again (e : ident * simport) : ident * simport :=
  (match stem (si_path (snd e)) with
   | Some s => if ident_eqb (ident_from u s) (fst e) then ident_from u s else snake_again (fst e)
   | None => snake_again (fst e)
   end, mkSImport (si_path (snd e)) None).
Lemma import_lexes e rest : printable_import u stem e -> ~ In 39 (si_path (snd e)) ->
  exists vs, lexes (print_import u stem e) vs rest /\ import_tokens u stem (import_again e) vs.
Proof.
  destruct e as [n im]. unfold print_import, import_again, printable_import. cbn [fst snd]. intros Hp Hq.
  set (p := si_path im) in *.
  assert (forall rest, lexes (39 :: p ++ [39]) [TkPath p] rest) as Hpath by (intros r; apply lexes_token; now apply lexeme_path).
  assert (lexes (txt "import '" ++ p ++ txt "'" ++ lf) [TkImport; TkPath p] rest) as H1.
  { change (txt "import '" ++ p ++ txt "'" ++ lf) with (txt "import" ++ [32] ++ [39] ++ p ++ [39] ++ lf).
    apply lexes_cons; [kw; now apply stops_name|]. apply lexes_skip; [apply space_white|].
    rewrite !app_assoc. apply lexes_end; [apply lf_white|]. rewrite <- app_assoc. apply Hpath. }
  assert (snake_printable u n ->
    lexes (txt "import '" ++ p ++ txt "' as " ++ snake_case n ++ lf) [TkImport; TkPath p; TkAs; TkIdentifier (snake_again n)] rest) as H2.
  { intros Hn. change (txt "import '" ++ p ++ txt "' as " ++ snake_case n ++ lf)
      with (txt "import" ++ [32] ++ 39 :: p ++ [39] ++ [32] ++ txt "as" ++ [32] ++ snake_case n ++ lf).
    apply lexes_cons; [kw; now apply stops_name|]. apply lexes_skip; [apply space_white|].
    replace (39 :: p ++ [39] ++ [32] ++ txt "as" ++ [32] ++ snake_case n ++ lf) with
      ((39 :: p ++ [39]) ++ [32] ++ txt "as" ++ [32] ++ snake_case n ++ lf) by (cbn [app]; now rewrite <- app_assoc).
    apply lexes_cons; [apply Hpath|]. apply lexes_skip; [apply space_white|].
    apply lexes_cons; [kw; now apply stops_name|]. apply lexes_skip; [apply space_white|].
    apply lexes_end; [apply lf_white|]. apply snake_lexes; [exact Hn|now apply stops_name]. }
  destruct (stem p) as [s|] eqn:Es.
  - destruct (ident_eqb (ident_from u s) n) eqn:Ee.
    + eexists. split; [exact H1|]. now constructor.
    + destruct Hp as [Hp|(s' & [= <-] & Hs)].
      * eexists. split; [now apply H2|]. constructor.
      * unfold same_name in Hs. apply ident_eqb_eq in Hs. symmetry in Hs. apply ident_eqb_eq in Hs. congruence.
  - destruct Hp as [Hp|(s' & [=] & _)]. eexists. split; [now apply H2|]. constructor.
Qed.
Lemma import_again_same e : printable_import u stem e -> snake_case (fst (import_again e)) = snake_case (fst e).
Proof.
  intros Hp. unfold import_again. cbn [fst]. destruct (stem (si_path (snd e))) as [s|] eqn:Es.
  - destruct (ident_eqb (ident_from u s) (fst e)) eqn:Ee; [now apply ident_eqb_eq|].
    destruct Hp as [[Hp _]|(s' & Es' & Hs)]; [now apply snake_again_same|]. rewrite Es in Es'. injection Es' as <-.
    unfold same_name in Hs. apply ident_eqb_eq in Hs. symmetry in Hs. apply ident_eqb_eq in Hs. congruence.
  - destruct Hp as [[Hp _]|(s' & Es' & Hs)]; [now apply snake_again_same|congruence].
Qed.
Lemma imports_lexes l : Forall (printable_import u stem) l -> Forall (fun e => ~ In 39 (si_path (snd e))) l -> forall rest,
  exists vs, lexes (flat_map (print_import u stem) l) vs rest /\ many (import_tokens u stem) (map import_again l) vs.
Proof.
  induction l as [|e l IH]; intros H1 H2 rest; [exists []; split; [apply lexes_nil|constructor]|].
  inversion H1 as [|? ? A1 A2]; subst. inversion H2 as [|? ? B1 B2]; subst. cbn [flat_map map].
  destruct (IH A2 B2 rest) as (vs & C1 & C2).
  destruct (import_lexes e (flat_map (print_import u stem) l ++ rest) A1 B1) as (ve & D1 & D2).
  exists (ve ++ vs). split; [now apply lexes_app|now constructor].
Qed.
Lemma import_again_sorted l : Forall (printable_import u stem) l ->
  StronglySorted (fun a b => ident_cmp (fst a) (fst b) = Lt) l ->
  same_imports (map import_again l) (map import_again l).
Proof.
  intros Hp Hs.
  assert (StronglySorted (fun a b => ident_cmp (fst a) (fst b) = Lt) (map import_again l)) as H.
  { induction Hs as [|e l H1 IH H2]; [constructor|]. inversion Hp as [|? ? P1 P2]; subst. cbn [map]. constructor; [now apply IH|].
    apply Forall_forall. intros x Hx. apply in_map_iff in Hx as (y & <- & Hy). rewrite Forall_forall in H2, P2.
    specialize (H2 y Hy). unfold ident_cmp in *. now rewrite !import_again_same by auto. }
  split; [|split; [reflexivity|exact H]]. clear Hp Hs. induction H as [|e m H1 IH H2]; constructor; [|exact IH].
  eapply Forall_impl; [|exact H2]. cbv beta. intros x ->. discriminate.
Qed.

(** ** The schema *)
Definition schema_again (s : sschema) : sschema :=
  mkSSchema (comment_again 0 (ss_comment s)) (map import_again (ss_imports s)) (map decl_again (ss_decls s)).
Definition schema_ok (s : sschema) : Prop :=
  printable_schema u stem s /\ Forall (fun e => ~ In 39 (si_path (snd e))) (ss_imports s) /\
  StronglySorted (fun a b => ident_cmp (fst a) (fst b) = Lt) (ss_imports s) /\
  Forall decl_ok (ss_decls s).
Lemma schema_lexed s : schema_ok s ->
  exists ts, lexed u 0 (print_schema u stem wrap s) ts /\ schema_grammar u stem (schema_again s) ts.
Proof.
  intros ([Hp1 Hp2] & Hq & Hs & Hd). unfold print_schema.
  set (c := print_comment wrap 0 (ss_comment s)).
  set (gap := if is_nonempty (ss_comment s) && (is_nonempty (ss_imports s) || is_nonempty (ss_decls s)) then lf else []).
  set (im := flat_map (print_import u stem) (ss_imports s)). set (sk := negb (is_nonempty (ss_imports s))).
  destruct (imports_lexes (ss_imports s) Hp1 Hq (print_decls u wrap sk (ss_decls s))) as (iv & I1 & I2). fold im in I1.
  destruct (decls_lexed (ss_decls s) Hd sk (blen c + blen gap + blen im)) as (dt & D1 & D2 & D3).
  destruct (I1 (blen c + blen gap) dt D1) as (it & I3 & <-).
  assert (Hgap : whites u gap) by (unfold gap; destruct (_ && _); [apply lf_white|constructor]).
  assert (Hbody : lexed u (blen c) (gap ++ im ++ print_decls u wrap sk (ss_decls s)) (it ++ dt)) by now apply lexed_whites.
  pose proof (import_again_sorted _ Hp1 Hs) as Hsame.
  assert (forall ct, schema_comment (comment_again 0 (ss_comment s)) ct (it ++ dt) ->
            schema_grammar u stem (schema_again s) (ct ++ it ++ dt)) as Hg.
  { intros ct Hct. now apply (schema_grammar_intro u stem _ (map import_again (ss_imports s))). }
  destruct (print_comment_cases 0 (ss_comment s)) as [[E1 E2]|(body & E1 & Hb)]; fold c in E1.
  - exists (it ++ dt). rewrite E1 in *. split; [exact Hbody|]. apply (Hg []). rewrite E2. constructor.
    intros t r ps E Ht. destruct it as [|t0 it].
    + cbn [app] in E. now apply (D3 t r ps).
    + exfalso. injection E as -> _. assert (tvar t = TkImport) as Et; [|congruence].
      cbn [vars map] in I2. clear -I2. remember (tvar t :: map tvar it) as x eqn:Ex.
      destruct I2 as [|e l te tl He Hl]; [discriminate|]. destruct He; cbn in Ex; congruence.
  - set (tc := mkToken 0 (blen (35 :: body)) (TkComment (comment_again 0 (ss_comment s)))).
    exists ([tc] ++ it ++ dt).
    assert (blen c = blen (35 :: body) + 1) as Hc
      by (rewrite E1; cbn [indent repeat app]; change (35 :: body ++ lf) with ((35 :: body) ++ lf); rewrite blen_app; reflexivity).
    assert (ss_comment s <> []) as Hne.
    { intros E. unfold c in E1. rewrite E in E1. discriminate E1. }
    split.
    + rewrite E1. cbn [indent repeat app].
      match goal with |- lexed _ _ ?x _ => replace x with ((35 :: body) ++ lf ++ gap ++ im ++ print_decls u wrap sk (ss_decls s))
        by (cbn [app]; now rewrite <- !app_assoc) end.
      unfold tc. apply (lexed_token u 0 (35 :: body)).
      * apply Hb. right. eexists. split; [reflexivity|].
        assert (gap = lf \/ (gap = [] /\ im = [] /\ print_decls u wrap sk (ss_decls s) = [])) as [->|(-> & -> & ->)].
        { unfold gap, im, sk. destruct (ss_comment s), (ss_imports s), (ss_decls s); try congruence; cbn; auto. }
        -- apply after_comment_stop; [discriminate|auto].
        -- cbn. apply (no_hash_nil u).
      * rewrite N.add_0_l. apply lexed_whites; [apply lf_white|]. change (blen lf) with 1. fold (blen (35 :: body)). rewrite <- Hc. exact Hbody.
    + apply Hg. constructor; [reflexivity|]. intros (t' & r' & E & _ & Hle).
      assert (gap = lf \/ (im = [] /\ print_decls u wrap sk (ss_decls s) = [])) as [Eg|[Ei Ed]].
      { unfold gap, im, sk. destruct (ss_comment s), (ss_imports s), (ss_decls s); try congruence; cbn; auto. }
      * pose proof (lexed_after u _ _ _ I3) as Ha. rewrite E in Ha. inversion Ha as [|? ? Ha1 _]; subst.
        unfold tc in Hle. cbn [tend] in Hle. rewrite Eg in Ha1. change (blen lf) with 1 in Ha1. lia.
      * rewrite Ei, Ed in I3. rewrite E in I3. apply lexed_empty in I3. discriminate.
Qed.
End Printer.
