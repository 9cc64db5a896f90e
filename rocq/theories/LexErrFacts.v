(** The tokenizer reports exactly the faults of a file. *)
From Verif Require Import LexErrSpec TokenFacts TokenFacts2 LocatedFacts ReportSpec.

Section Sane.
Context (u : unicode) (Hu : ascii_agrees u) (Hw : white_not_alphabetic u) (pal : palette) (g : N -> str).
Notation faults := (faults u pal g).
Notation misread := (misread u pal g).
Notation step := (lex_step_loc u pal g).

Lemma faults_whites gap : forall i r es, whites u gap -> faults (i + blen gap) r es -> faults i (gap ++ r) es.
Proof.
  induction gap as [|c gap IH]; intros i r es Hg H.
  - rewrite blen_nil, N.add_0_r in H. exact H.
  - inversion Hg; subst. cbn [app]. apply faults_white; [assumption|]. apply IH; [assumption|].
    rewrite blen_cons in H. fold (clen c). now rewrite <- N.add_assoc.
Qed.
Lemma digits_len ds : Forall (fun c => ascii_is_digit c = true) ds -> blen ds = lenN ds.
Proof.
  induction 1 as [|d ds Hd _ IH]; [reflexivity|]. rewrite blen_cons, IH, clen_ascii by (unfold ascii_is_digit in Hd; lia).
  unfold lenN. cbn [length]. lia.
Qed.
Lemma lex_loc_sound fuel : forall i l ts es, lex_loc u pal g fuel i l = Some (ts, es) -> faults i l es.
Proof.
  induction fuel as [|fuel IH]; intros i [|c l] ts es; cbn [lex_loc]; try discriminate; try (intros [= _ <-]; constructor).
  destruct (step i c l) as [[[ts1 es1] i'] r'] eqn:E.
  destruct (lex_loc u pal g fuel i' r') as [[ts2 es2]|] eqn:El; [|discriminate].
  intros [= <- <-]. specialize (IH i' r' ts2 es2 El). revert E.
  unfold lex_step_loc. destruct (symbol_of c) as [v|] eqn:Es.
  { intros [= <- <- <- <-]. pose proof (symbol_ascii u Hu c v Es) as (Hc & _). apply symbol_in in Es.
    pose proof (faults_token u pal g i [c] v l es2) as H. fold (blen [c]) in H. rewrite blen_cons, blen_nil, clen_ascii in H by exact Hc.
    rewrite N.add_0_r in H. apply H; [now apply lexeme_symbol|exact IH]. }
  destruct (ident_start u c) eqn:Ei.
  { destruct (span (ident_continue u) l) as [more rest'] eqn:Esp. apply span_spec in Esp as (-> & Hm & Hr).
    apply ident_stop in Hr. assert (Forall (name_char u) more) as Hm'.
    { eapply Forall_impl; [|exact Hm]. intros d. apply ident_continue_iff. }
    cbv zeta. destruct (keyword_of keywords (c :: more)) as [v|] eqn:Ek.
    - intros [= <- <- <- <-]. apply (faults_token u pal g i (c :: more) v rest' es2); [|exact IH].
      apply lexeme_keyword; [|exact Hr]. now apply keyword_in in Ek.
    - intros H. injection H as H1 H2 H3 H4. subst ts1 i' r'. rewrite <- H2. clear H2.
      unfold ident_start in Ei. unfold strip_sigil. destruct (c =? sigil) eqn:Ec.
      + unfold sigil in Ec. assert (c = 36) by lia. subst c.
        destruct more as [|d more]; cbn [ident_errors_loc].
        * pose proof (faults_misread u pal g i [36] rest' _ es2 (misread_empty u pal g i rest' Hr)) as H.
          apply H. exact IH.
        * destruct (d =? underscore) eqn:Ed.
          -- unfold underscore in Ed. assert (d = 95) by lia. subst d. inversion Hm'; subst.
             apply (faults_misread u pal g i (36 :: 95 :: more) rest' _ es2); [|exact IH].
             apply (misread_underscore u pal g i [36] more rest'); auto.
          -- unfold underscore in Ed. apply (faults_token u pal g i (36 :: d :: more) (TkIdentifier (ident_from u (d :: more))) rest' es2); [|exact IH].
             apply lexeme_raw_ident; auto; [discriminate|cbn; lia].
      + cbn [ident_errors_loc]. destruct (c =? underscore) eqn:Ed.
        * unfold underscore in Ed. assert (c = 95) by lia. subst c.
          apply (faults_misread u pal g i (95 :: more) rest' _ es2); [|exact IH].
          apply (misread_underscore u pal g i [] more rest'); auto.
        * rewrite !orb_false_r in Ei. apply (faults_token u pal g i (c :: more) (TkIdentifier (ident_from u (c :: more))) rest' es2); [|exact IH].
          apply lexeme_ident; auto. exact (keyword_none keywords _ Ek). }
  destruct (ascii_is_digit c) eqn:Ed.
  { destruct (span ascii_is_digit l) as [more rest'] eqn:Esp. apply span_spec in Esp as (-> & Hm & Hr).
    assert (not_followed_by (fun c => 48 <= c <= 57) rest') as Hr'.
    { destruct rest' as [|d r]; [exact I|]. cbn [not_followed_by]. unfold ascii_is_digit in Hr. lia. }
    cbv zeta. destruct (dec_value (c :: more) <? two64) eqn:Ev.
    - intros [= <- <- <- <-]. apply (faults_token u pal g i (c :: more) (TkInteger (dec_value (c :: more))) rest' es2); [|exact IH].
      apply lexeme_integer; [discriminate|apply value_decimal; now constructor| |exact Hr'].
      change (2 ^ 64) with two64. lia.
    - intros [= <- <- <- <-]. apply (faults_misread u pal g i (c :: more) rest' _ es2); [|exact IH].
      rewrite digits_len by now constructor.
      apply (misread_integer u pal g i (c :: more) (dec_value (c :: more))); [discriminate|apply value_decimal; now constructor| |exact Hr'].
      change (2 ^ 64) with two64. lia. }
  destruct (c =? quote) eqn:Eq.
  { unfold quote in *. assert (c = 39) by lia. subst c.
    destruct (span (fun d => negb (d =? 39)) l) as [path rest'] eqn:Esp. apply span_spec in Esp as (-> & Hm & Hr).
    assert (~ In 39 path) as Hp. { intros Hin. rewrite Forall_forall in Hm. apply Hm in Hin. discriminate Hin. }
    destruct rest' as [|q rest'].
    - intros [= <- <- <- <-]. rewrite app_nil_r. pose proof (faults_misread u pal g i (39 :: path) [] _ es2 (misread_path u pal g i path Hp)) as H.
      fold (blen (39 :: path)) in H. rewrite blen_cons, clen_ascii in H by lia. rewrite app_nil_r, N.add_assoc in H. apply H. exact IH.
    - apply negb_false_iff in Hr. assert (q = 39) by lia. subst q.
      intros [= <- <- <- <-].
      pose proof (faults_token u pal g i (39 :: path ++ [39]) (TkPath path) rest' es2) as H.
      fold (blen (39 :: path ++ [39])) in H. rewrite blen_cons, blen_app, blen_cons, blen_nil, !clen_ascii in H by lia.
      replace (i + (1 + (blen path + (1 + 0)))) with (i + 1 + blen path + 1) in H by lia.
      cbn [app] in H. rewrite <- app_assoc in H. cbn [app] in H. apply H; [|exact IH]. now apply lexeme_path. }
  destruct (c =? hash) eqn:Eh.
  { unfold hash in Eh. assert (c = 35) by lia. subst c.
    destruct (read_comment u (i + 1) true [] (i + 1) l) as [[[lines lend] o] r] eqn:Er.
    intros [= <- <- <- <-]. apply read_comment_spec in Er; [|exact Hu|now intros []].
    destruct Er as (b & gap & -> & Hb & -> & Ho & Hg & He). cbn [app] in Hb.
    pose proof (faults_token u pal g i (35 :: b) (TkComment (paragraphs u lines)) (gap ++ r) es2) as H.
    fold (blen (35 :: b)) in H. rewrite blen_cons, clen_ascii in H by lia. rewrite N.add_assoc in H.
    apply H; [apply (lexeme_comment u lines); [exact Hb|now apply paragraphs_iff|exact He]|]. apply faults_whites; [exact Hg|]. now rewrite <- Ho. }
  destruct (is_whitespace u c) eqn:Ewh.
  - intros [= <- <- <- <-]. now apply faults_white.
  - intros [= <- <- <- <-]. unfold ident_start in Ei. apply orb_false_iff in Ei as [Ei Es1]. apply orb_false_iff in Ei as [Ei Es2].
    pose proof (faults_misread u pal g i [c] l _ es2 (misread_symbol u pal g i c l Ewh Ei ltac:(unfold ascii_is_digit in Ed; lia)
      ltac:(unfold quote, hash, sigil, underscore in *; intros Hin; cbn in Hin;
            repeat (destruct Hin as [<-|Hin]; [first [discriminate Es | discriminate Es1 | discriminate Es2 | discriminate Eq | discriminate Eh]|]); exact Hin))) as H.
    fold (blen [c]) in H. rewrite blen_cons, blen_nil, N.add_0_r in H. apply H. exact IH.
Qed.

(** ** Completeness *)
Lemma misread_not_white i text rest e : misread i text rest e -> exists c t, text = c :: t /\ is_whitespace u c = false.
Proof.
  destruct 1 as [rest H|sigil name rest H|digits n rest Hd Hdec|p|c rest H].
  - exists 36, []. split; [reflexivity|apply (white_ascii u Hu); [lia|reflexivity]].
  - destruct H as [-> | ->]; [exists 95, name|exists 36, (95 :: name)]; (split; [reflexivity|apply (white_ascii u Hu); [lia|reflexivity]]).
  - destruct digits as [|d ds]; [congruence|]. exists d, ds. split; [reflexivity|].
    apply decimal_value in Hdec as [_ Hdg]. inversion Hdg as [|? ? Hd1 Hd2]; subst. pose proof (digit_ascii u Hu d Hd1) as Hd'.
    apply (white_ascii u Hu); [tauto|]. unfold ascii_is_digit, ascii_is_white in *. lia.
  - exists 39, p. split; [reflexivity|apply (white_ascii u Hu); [lia|reflexivity]].
  - now exists c, [].
Qed.
Lemma faults_skip gap : forall i r es, whites u gap -> faults i (gap ++ r) es -> faults (i + blen gap) r es.
Proof.
  induction gap as [|c gap IH]; intros i r es Hg H.
  - now rewrite blen_nil, N.add_0_r.
  - inversion Hg; subst. rewrite blen_cons, N.add_assoc. apply IH; [assumption|]. cbn [app] in H.
    remember (c :: gap ++ r) as l eqn:El. destruct H as [i|i c' s es Hc' H'|i text v rest es Hl H'|i text rest e es Hl H'].
    + discriminate.
    + injection El as -> ->. exact H'.
    + apply (lexeme_not_white u Hu Hw) in Hl as (c' & t & -> & Hc'). injection El as -> _. congruence.
    + apply misread_not_white in Hl as (c' & t & -> & Hc'). injection El as -> _. congruence.
Qed.
Lemma step_forget i c rest ts i' rest' : lex_step u i c rest = (ts, [], i', rest') -> step i c rest = (ts, [], i', rest').
Proof.
  pose proof (lex_step_forget u pal g i c rest) as H. destruct (step i c rest) as [[[ts1 es1] i1] r1]. rewrite H.
  intros [= -> H1 -> ->]. apply map_eq_nil in H1. now subst.
Qed.
Lemma misread_step text rest i e : misread i text rest e ->
  exists c t ts, text = c :: t /\ step i c (t ++ rest) = (ts, [e], i + blen text, rest).
Proof.
  destruct 1 as [rest Hr|sg name rest Hs Hn Hr|digits n rest Hd Hdec Hge Hr|p Hp|c rest H1 H2 H3 H4].
  - eexists 36, [], _. split; [reflexivity|]. unfold lex_step_loc. cbn [app].
    change (symbol_of 36) with (@None tvariant). cbv iota.
    replace (ident_start u 36) with true by (unfold ident_start, Tokenizer.sigil; symmetry; apply orb_true_r). cbv iota.
    pose proof (span_app (ident_continue u) [] rest (Forall_nil _)) as E. cbn [app] in E. rewrite E by now apply ident_stop.
    reflexivity.
  - destruct Hs as [-> | ->]; cbn [app].
    + eexists 95, name, _. split; [reflexivity|]. unfold lex_step_loc.
      change (symbol_of 95) with (@None tvariant). cbv iota.
      replace (ident_start u 95) with true by (unfold ident_start, Tokenizer.sigil, underscore; change (95 =? 95) with true; now rewrite orb_true_r). cbv iota.
      rewrite span_app; [|now apply name_continue|now apply ident_stop]. cbv zeta.
      change (keyword_of keywords (95 :: name)) with (@None tvariant). cbv iota. reflexivity.
    + eexists 36, (95 :: name), _. split; [reflexivity|]. unfold lex_step_loc.
      change (symbol_of 36) with (@None tvariant). cbv iota.
      replace (ident_start u 36) with true by (unfold ident_start, Tokenizer.sigil; symmetry; apply orb_true_r). cbv iota.
      rewrite span_app; [|now apply name_continue; constructor; [right|]|now apply ident_stop]. cbv zeta.
      change (keyword_of keywords (36 :: 95 :: name)) with (@None tvariant). cbv iota. reflexivity.
  - apply decimal_value in Hdec as [<- Hdig]. pose proof (digits_len digits Hdig) as Hlen. destruct digits as [|d ds]; [congruence|].
    eexists d, ds, _. split; [reflexivity|]. unfold lex_step_loc.
    inversion Hdig as [|? ? H1 H2']; subst. pose proof (digit_ascii u Hu d H1) as (_ & -> & ->). rewrite H1.
    rewrite span_app; [|assumption|]. 2: { destruct rest as [|x r]; [exact I|]. cbn in Hr. unfold ascii_is_digit. lia. }
    cbv zeta. change (2 ^ 64) with two64 in Hge. replace (dec_value (d :: ds) <? two64) with false by lia. rewrite Hlen. reflexivity.
  - eexists 39, p, _. split; [reflexivity|]. unfold lex_step_loc.
    change (symbol_of 39) with (@None tvariant). cbv iota.
    assert (ident_start u 39 = false) as ->.
    { unfold ident_start. rewrite (agrees_alpha u Hu) by reflexivity. reflexivity. }
    change (ascii_is_digit 39) with false. cbv iota. change (39 =? quote) with true. cbv iota. unfold quote.
    rewrite span_app; [|
      apply Forall_forall; intros d Hd; apply negb_true_iff; destruct (d =? 39) eqn:E; [assert (d = 39) by lia; subst; contradiction|reflexivity]|exact I].
    rewrite blen_cons, clen_ascii by lia. rewrite N.add_assoc. reflexivity.
  - eexists c, [], _. split; [reflexivity|]. unfold lex_step_loc. cbn [app].
    rewrite symbol_none by (intros ->; apply H4; cbn; tauto).
    assert (ident_start u c = false) as ->.
    { unfold ident_start, Tokenizer.sigil, underscore. rewrite H2. cbn [orb]. apply orb_false_iff. split; apply N.eqb_neq; intros ->; apply H4; cbn; tauto. }
    assert (ascii_is_digit c = false) as -> by (unfold ascii_is_digit; lia).
    assert (c =? quote = false) as -> by (unfold quote; apply N.eqb_neq; intros ->; apply H4; cbn; tauto).
    assert (c =? hash = false) as -> by (unfold hash; apply N.eqb_neq; intros ->; apply H4; cbn; tauto).
    rewrite H1, blen_cons, blen_nil, N.add_0_r. reflexivity.
Qed.
Lemma lex_loc_complete fuel : forall i l es, (length l <= fuel)%nat -> faults i l es -> exists ts, lex_loc u pal g fuel i l = Some (ts, es).
Proof.
  induction fuel as [|fuel IH]; intros i l es Hf H.
  - destruct H as [i|i c s es Hc Hs|i text v rest es Hl Hr|i text rest e es Hl Hr]; [now exists []|cbn in Hf; lia| |].
    + apply (lexeme_not_white u Hu Hw) in Hl as (c & t & -> & _). cbn in Hf. lia.
    + apply misread_not_white in Hl as (c & t & -> & _). cbn in Hf. lia.
  - destruct H as [i|i c s es Hc Hs|i text v rest es Hl Hr|i text rest e es Hl Hr].
    + now exists [].
    + cbn [lex_loc]. rewrite (step_forget _ _ _ _ _ _ (white_step u Hu Hw c i s Hc)). cbn in Hf. destruct (IH (i + clen c) s es) as [ts E]; [lia|exact Hs|].
      rewrite E. now exists ts.
    + fold (blen text) in *. destruct (lexeme_step u Hu text v rest i Hl) as (c & t & gap & r & -> & -> & Hg & Es).
      cbn [app lex_loc]. rewrite (step_forget _ _ _ _ _ _ Es). rewrite !app_length in Hf. cbn in Hf.
      destruct (IH (i + blen (c :: t) + blen gap) r es) as [ts E]; [lia|now apply faults_skip|]. rewrite E. eexists. reflexivity.
    + fold (blen text) in *. destruct (misread_step text rest i e Hl) as (c & t & ts1 & -> & Es).
      cbn [app lex_loc]. rewrite Es. rewrite !app_length in Hf. cbn in Hf.
      destruct (IH (i + blen (c :: t)) rest es) as [ts E]; [lia|exact Hr|]. rewrite E. eexists. reflexivity.
Qed.
Theorem tokenize_faults s es : tokenize_loc u pal g s = XLexErr es <-> faults 0 s es /\ es <> [].
Proof.
  unfold tokenize_loc. split.
  - destruct (lex_loc u pal g (length s) 0 s) as [[ts [|e es']]|] eqn:E; try discriminate. intros [= <-].
    apply lex_loc_sound in E. split; [exact E|discriminate].
  - intros [H Hne]. destruct (lex_loc_complete (length s) 0 s es) as [ts ->]; [lia|exact H|]. destruct es; [congruence|reflexivity].
Qed.
Theorem tokenize_no_faults s ts : tokenize_loc u pal g s = XLexOk ts <-> lexed u 0 s ts.
Proof.
  rewrite <- (tokenize_iff u Hu Hw), (tokenize_forget u pal g). destruct (tokenize_loc u pal g s); cbn; split; congruence.
Qed.

(** ** The places *)
Lemma name_no_newline name : Forall (name_char u) name -> no_newline name.
Proof.
  intros H Hin. rewrite Forall_forall in H. apply H in Hin as [Hin|Hin]; [|discriminate].
  rewrite (agrees_alnum u Hu) in Hin by reflexivity. discriminate.
Qed.
Lemma digits_no_newline ds : Forall (fun c => ascii_is_digit c = true) ds -> no_newline ds.
Proof. intros H Hin. rewrite Forall_forall in H. apply H in Hin. discriminate. Qed.
Lemma misread_good i text rest e : misread i text rest e -> forall a,
  blen a = i -> good_range u (a ++ text ++ rest) (xl_range e).
Proof.
  intros H a Ha. pose proof (misread_not_white _ _ _ _ H) as (c0 & t0 & Et & Hc0).
  assert (forall b c, text ++ rest = b ++ c -> b <> [] -> no_newline b -> xl_range e = mkRange i (i + blen b) -> good_range u (a ++ text ++ rest) (xl_range e)) as Hgood.
  { intros b c Eb Hb Hn ->. exists a, b, c. split; [split; [now rewrite Eb|]; cbn [r_start r_end]; unfold blen in *; lia|]. right.
    destruct b as [|d b]; [congruence|]. rewrite Et in Eb. injection Eb as -> _. cbn [hd]. split; [exact Hc0|].
    exists [], d, b. split; [reflexivity|]. split; [exact Hc0|]. intros Hin. apply Hn. now right. }
  destruct H as [rest Hr|sg name rest Hs Hn Hr|digits n rest Hd Hdec Hge Hr|p Hp|c rest H1 H2 H3 H4].
  - apply (Hgood [36] rest); [reflexivity|discriminate|intros [?|[]]; lia|reflexivity].
  - apply (Hgood (sg ++ 95 :: name) rest); [reflexivity|destruct sg; discriminate| |reflexivity].
    apply name_no_newline in Hn. intros Hin. apply in_app_iff in Hin as [Hin|[Hin|Hin]]; [destruct Hs as [-> | ->]; [destruct Hin|destruct Hin as [Hin|[]]; lia]|lia|now apply Hn].
  - apply decimal_value in Hdec as [_ Hdig]. apply (Hgood digits rest); [reflexivity|exact Hd|now apply digits_no_newline|]. cbn [xl_range]. now rewrite digits_len.
  - apply (Hgood [39] p); [now rewrite app_nil_r|discriminate|intros [?|[]]; lia|reflexivity].
  - exists a, [], ([c] ++ rest). split; [|now left]. split; [reflexivity|]. cbn [r_start r_end xl_range]. unfold blen in Ha.
    change (utf8_encode []) with (@nil N). change (lenN (@nil N)) with 0. lia.
Qed.
Lemma faults_good i s es : faults i s es -> forall a, blen a = i -> Forall (fun e => good_range u (a ++ s) (xl_range e)) es.
Proof.
  induction 1 as [i|i c s es Hc H IH|i text v rest es Hl H IH|i text rest e es Hl H IH]; intros a Ha.
  - constructor.
  - specialize (IH (a ++ [c])). rewrite <- app_assoc in IH. apply IH. rewrite blen_app, blen_cons, blen_nil, N.add_0_r. unfold clen. lia.
  - specialize (IH (a ++ text)). rewrite <- app_assoc in IH. apply IH. rewrite blen_app. unfold blen at 2. lia.
  - constructor; [now apply misread_good with (i := i)|]. specialize (IH (a ++ text)). rewrite <- app_assoc in IH. apply IH. rewrite blen_app. unfold blen at 2. lia.
Qed.
End Sane.
