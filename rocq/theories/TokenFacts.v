From Verif Require Export TokenSpec IdentFacts.

Lemma clen_pos c : 1 <= clen c.
Proof. unfold clen, utf8_char, lenN. destruct (c <? 128), (c <? 2048), (c <? 65536); cbn [length]; lia. Qed.
Lemma clen_ascii c : c < 128 -> clen c = 1.
Proof. intros H. unfold clen, utf8_char. replace (c <? 128) with true by lia. reflexivity. Qed.
Lemma blen_app a b : blen (a ++ b) = blen a + blen b.
Proof. unfold blen, utf8_encode. rewrite flat_map_app. unfold lenN. rewrite app_length. lia. Qed.
Lemma blen_cons c s : blen (c :: s) = clen c + blen s.
Proof. exact (blen_app [c] s) || (unfold blen, clen, utf8_encode, lenN; cbn [flat_map]; rewrite app_length; lia). Qed.
Lemma blen_nil : blen [] = 0.
Proof. reflexivity. Qed.

(** ** span *)
Lemma span_spec p l a b : span p l = (a, b) ->
  l = a ++ b /\ Forall (fun c => p c = true) a /\ match b with [] => True | c :: _ => p c = false end.
Proof.
  revert a b. induction l as [|c l IH]; intros a b; cbn [span].
  - intros [= <- <-]. repeat split; constructor.
  - destruct (p c) eqn:E.
    + destruct (span p l) as [a' b'] eqn:Es. intros [= <- <-]. destruct (IH a' b' eq_refl) as (H1 & H2 & H3).
      subst l. repeat split; auto.
    + intros [= <- <-]. repeat split; auto.
Qed.
Lemma span_app p a b : Forall (fun c => p c = true) a -> match b with [] => True | c :: _ => p c = false end ->
  span p (a ++ b) = (a, b).
Proof.
  induction 1 as [|c a H1 H2 IH]; intros Hb; cbn [app span].
  - destruct b as [|c b]; [reflexivity|]. cbn [span]. now rewrite Hb.
  - rewrite H1, IH by exact Hb. reflexivity.
Qed.

(** ** Decimal numbers *)
Lemma dec_snoc s d : dec_value (s ++ [d]) = dec_value s * 10 + (d - 48).
Proof. unfold dec_value. now rewrite fold_left_app. Qed.
Lemma decimal_value s n : decimal s n -> dec_value s = n /\ Forall (fun c => ascii_is_digit c = true) s.
Proof.
  induction 1 as [|s n d H1 [IH1 IH2] H2]; [split; [reflexivity|constructor]|].
  rewrite dec_snoc, IH1. split; [lia|]. apply Forall_app. split; [exact IH2|]. constructor; [|constructor].
  unfold ascii_is_digit. lia.
Qed.
Lemma value_decimal s : Forall (fun c => ascii_is_digit c = true) s -> decimal s (dec_value s).
Proof.
  induction s as [|d s IH] using rev_ind; intros H; [constructor|].
  apply Forall_app in H as [H1 H2]. inversion H2 as [|? ? H3 _]; subst. rewrite dec_snoc.
  unfold ascii_is_digit in H3. replace (dec_value s * 10 + (d - 48)) with (10 * dec_value s + (d - 48)) by lia.
  replace [d] with [48 + (d - 48)] by (f_equal; lia). constructor; [now apply IH|lia].
Qed.

(** ** Paragraphs *)
Lemma trim_start_spec u s : exists a, s = a ++ trim_start u s /\ whites u a /\
  (trim_start u s = [] \/ is_whitespace u (hd 0 (trim_start u s)) = false).
Proof.
  induction s as [|c s (a & H1 & H2 & H3)]; [exists []; repeat split; auto; constructor|].
  cbn [trim_start]. destruct (is_whitespace u c) eqn:E.
  - exists (c :: a). cbn [app]. rewrite <- H1. repeat split; auto. now constructor.
  - exists []. repeat split; auto. constructor.
Qed.
Lemma trim_start_whites u a s : whites u a -> trim_start u (a ++ s) = trim_start u s.
Proof. induction 1 as [|c a H1 H2 IH]; [reflexivity|]. cbn [app trim_start]. now rewrite H1. Qed.
Lemma trim_start_id u s : s = [] \/ is_whitespace u (hd 0 s) = false -> trim_start u s = s.
Proof. destruct s as [|c s]; [reflexivity|]. intros [H|H]; [discriminate|]. cbn in *. now rewrite H. Qed.
Lemma hd_rev (l : str) : hd 0 (rev l) = last l 0.
Proof. destruct l as [|c l] using rev_ind; [reflexivity|]. rewrite rev_app_distr, last_last. reflexivity. Qed.
Lemma last_rev (l : str) : last (rev l) 0 = hd 0 l.
Proof. now rewrite <- hd_rev, rev_involutive. Qed.
Lemma hd_app (a b : str) : a <> [] -> hd 0 (a ++ b) = hd 0 a.
Proof. now destruct a. Qed.
Lemma last_app_ne (a b : str) : b <> [] -> last (a ++ b) 0 = last b 0.
Proof.
  intros H. destruct b as [|c b] using rev_ind; [congruence|]. now rewrite app_assoc, !last_last.
Qed.
Lemma trim_iff u s t : trim u s = t <-> trimmed u s t.
Proof.
  assert (forall s, trimmed u s (trim u s)) as H0.
  { clear. intros s. unfold trim. destruct (trim_start_spec u s) as (a & H1 & H2 & H3). set (m := trim_start u s) in *.
    destruct (trim_start_spec u (rev m)) as (b & H4 & H5 & H6). set (r := trim_start u (rev m)) in *.
    exists a, (rev b). assert (m = rev r ++ rev b) as Hm by (rewrite <- rev_app_distr, <- H4; now rewrite rev_involutive).
    split; [rewrite <- Hm; exact H1|]. split; [exact H2|]. split; [now apply Forall_rev|].
    destruct H6 as [H6|H6]; [left; now rewrite H6|]. destruct H3 as [H3|H3].
    - left. rewrite Hm in H3. now apply app_eq_nil in H3.
    - destruct (rev r) as [|c r'] eqn:Er; [now left|]. right. rewrite Hm in H3. rewrite hd_app in H3 by discriminate.
      split; [exact H3|]. rewrite <- Er, last_rev. exact H6. }
  split; [intros <-; apply H0|].
  intros (a & b & -> & Ha & Hb & Ht). unfold trim. rewrite trim_start_whites by exact Ha.
  destruct Ht as [->|[H1 H2]].
  - cbn [app]. assert (forall b, whites u b -> trim_start u b = []) as Hn.
    { clear. induction 1; [reflexivity|]. cbn. now rewrite H. }
    rewrite (Hn b Hb). reflexivity.
  - destruct t as [|c t]; [cbn [app] in *|].
    + assert (forall b, whites u b -> trim_start u b = []) as Hn.
      { clear. induction 1; [reflexivity|]. cbn. now rewrite H. }
      rewrite (Hn b Hb). reflexivity.
    + rewrite (trim_start_id u ((c :: t) ++ b)) by (right; exact H1). rewrite rev_app_distr, trim_start_whites by now apply Forall_rev.
      rewrite trim_start_id by (right; rewrite hd_rev; exact H2). apply rev_involutive.
Qed.
Lemma separated_cons (l : str) ls : ls <> [] -> separated 32 (l :: ls) = l ++ 32 :: separated 32 ls.
Proof. now destruct ls. Qed.
Lemma separated_snoc b (l : str) : b <> [] -> separated 32 (b ++ [l]) = separated 32 b ++ 32 :: l.
Proof.
  induction b as [|x b IH]; [congruence|]. intros _. destruct b as [|y b]; [reflexivity|].
  cbn [app] in *. rewrite separated_cons by discriminate. rewrite IH by discriminate. rewrite (separated_cons x (y :: b)) by discriminate.
  now rewrite <- app_assoc.
Qed.
Lemma separated_nonempty b : Forall (fun l : str => l <> []) b -> is_nonempty (separated 32 b) = is_nonempty b.
Proof. destruct 1 as [|x b H1 H2]; [reflexivity|]. destruct b; destruct x; try congruence; reflexivity. Qed.
Lemma merge_block b : forall done rest, Forall (fun l : str => l <> []) done -> Forall (fun l => l <> []) b ->
  merge_lines (separated 32 done) (b ++ rest) = merge_lines (separated 32 (done ++ b)) rest.
Proof.
  induction b as [|x b IH]; intros done rest Hd Hb; [now rewrite app_nil_r|]. inversion Hb as [|? ? Hx Hb']; subst.
  cbn [app merge_lines]. destruct x as [|c x]; [congruence|]. cbn [is_nonempty negb andb].
  rewrite separated_nonempty by exact Hd.
  replace ((if is_nonempty done then separated 32 done ++ [space] else separated 32 done) ++ c :: x)
    with (separated 32 (done ++ [c :: x])).
  - rewrite IH by (auto; apply Forall_app; auto). now rewrite <- app_assoc.
  - destruct done as [|y done]; [reflexivity|]. cbn [is_nonempty]. rewrite separated_snoc by discriminate. now rewrite <- app_assoc.
Qed.
Lemma blocks_merge ls bs : blocks ls bs -> merge_lines [] ls = map (separated 32) bs.
Proof.
  induction 1 as [|ls bs H IH|b ls bs Hb1 Hb2 Hls H IH]; [reflexivity|exact IH|].
  pose proof (merge_block b [] ls (Forall_nil _) Hb2) as E. cbn [app separated] in E. rewrite E. cbn [map].
  pose proof (separated_nonempty b Hb2) as Hn. destruct b as [|x b]; [congruence|]. cbn [is_nonempty] in Hn.
  destruct Hls as [->|[ls' ->]]; cbn [merge_lines]; rewrite Hn; cbn [is_nonempty negb andb].
  - cbn in IH. now rewrite <- IH.
  - f_equal. exact IH.
Qed.
Lemma blocks_exist ls : exists bs, blocks ls bs.
Proof.
  assert (forall ls b, Forall (fun l : str => l <> []) b -> exists bs, blocks (b ++ ls) bs) as H; [|apply (H ls []); constructor].
  induction ls0 as [|l ls0 IH]; intros b Hb.
  - destruct b as [|x b]; [exists []; constructor|]. exists [x :: b]. constructor; auto; [discriminate|constructor].
  - destruct l as [|c l].
    + destruct (IH [] (Forall_nil _)) as [bs Hbs]. cbn [app] in Hbs. destruct b as [|x b].
      * exists bs. now constructor.
      * exists ((x :: b) :: bs). constructor; auto; [discriminate|right; eauto|now constructor].
    + destruct (IH (b ++ [c :: l])) as [bs Hbs]; [apply Forall_app; split; [exact Hb|constructor; [discriminate|constructor]]|].
      exists bs. now rewrite <- app_assoc in Hbs.
Qed.
Lemma paragraphs_iff u lines ps : ps = paragraphs u lines <-> comment_paragraphs u lines ps.
Proof.
  unfold paragraphs. split.
  - intros ->. destruct (blocks_exist (map (trim u) lines)) as [bs Hbs]. exists (map (trim u) lines), bs.
    split; [|split; [exact Hbs|now apply blocks_merge]].
    induction lines as [|l lines IH]; [constructor|]. cbn [map]. constructor; [now apply trim_iff|].
    clear. induction lines as [|l lines IH]; [constructor|]. cbn [map]. constructor; [now apply trim_iff|exact IH].
  - intros (tls & bs & Ht & Hb & ->). rewrite <- (blocks_merge _ _ Hb). f_equal.
    clear - Ht. induction Ht as [|l t lines tls H1 H2 IH]; [reflexivity|]. cbn [map]. apply trim_iff in H1. now rewrite H1, IH.
Qed.

(** ** Keywords *)
Lemma keyword_in l s v : keyword_of l s = Some v -> In (s, v) l.
Proof.
  induction l as [|[k w] l IH]; [discriminate|]. cbn [keyword_of]. destruct (str_eqb s k) eqn:E.
  - intros [= <-]. apply str_eqb_eq in E. subst. now left.
  - intros H. right. now apply IH.
Qed.
Lemma keyword_none l s : keyword_of l s = None -> forall v, ~ In (s, v) l.
Proof.
  induction l as [|[k w] l IH]; cbn [keyword_of]; intros H v; [easy|]. destruct (str_eqb s k) eqn:E; [discriminate|].
  intros [[= -> ->]|Hin]; [now rewrite str_eqb_refl in E|]. now apply (IH H v).
Qed.
Lemma keyword_reserved k v : In (k, v) reserved -> keyword_of keywords k = Some v.
Proof. intros H. repeat (destruct H as [[= <- <-]|H]; [reflexivity|]). destruct H. Qed.
Lemma reserved_start k v : In (k, v) reserved ->
  exists c k', k = c :: k' /\ ascii_is_letter c = true /\
    Forall (fun d => ascii_is_letter d || ascii_is_digit d = true) k'.
Proof.
  assert (forallb (fun kv => match fst kv with [] => false | c :: k' => ascii_is_letter c && forallb (fun d => ascii_is_letter d || ascii_is_digit d) k' end) reserved = true) as H
    by reflexivity.
  intros Hin. rewrite forallb_forall in H. specialize (H _ Hin). cbn [fst] in H.
  destruct k as [|c k']; [discriminate|]. apply andb_true_iff in H as [H1 H2]. exists c, k'. split; [reflexivity|]. split; [exact H1|].
  apply Forall_forall. now apply forallb_forall.
Qed.

Section Sane.
Context (u : unicode) (Hu : ascii_agrees u) (Hw : white_not_alphabetic u).

Lemma ident_continue_iff c : ident_continue u c = true <-> name_char u c.
Proof. unfold ident_continue, name_char, underscore. rewrite orb_true_iff, N.eqb_eq. reflexivity. Qed.
Lemma ident_stop (rest : str) :
  match rest with [] => True | c :: _ => ident_continue u c = false end <-> not_followed_by (name_char u) rest.
Proof.
  destruct rest as [|c r]; [reflexivity|]. cbn [not_followed_by]. rewrite <- ident_continue_iff.
  destruct (ident_continue u c); split; congruence.
Qed.
Lemma symbol_in c v : symbol_of c = Some v <-> In (c, v) symbols.
Proof.
  split.
  - unfold symbol_of, symbols. intros H.
    destruct (c =? 58) eqn:E1; [assert (c = 58) by lia; subst; injection H as <-; cbn; tauto|].
    destruct (c =? 46) eqn:E2; [assert (c = 46) by lia; subst; injection H as <-; cbn; tauto|].
    destruct (c =? 61) eqn:E3; [assert (c = 61) by lia; subst; injection H as <-; cbn; tauto|].
    destruct (c =? 123) eqn:E4; [assert (c = 123) by lia; subst; injection H as <-; cbn; tauto|].
    destruct (c =? 91) eqn:E5; [assert (c = 91) by lia; subst; injection H as <-; cbn; tauto|].
    destruct (c =? 125) eqn:E6; [assert (c = 125) by lia; subst; injection H as <-; cbn; tauto|].
    destruct (c =? 93) eqn:E7; [assert (c = 93) by lia; subst; injection H as <-; cbn; tauto|discriminate].
  - intros H. repeat (destruct H as [[= <- <-]|H]; [reflexivity|]). destruct H.
Qed.
Lemma symbol_ascii c v : symbol_of c = Some v -> c < 128 /\ is_whitespace u c = false /\ ascii_is_letter c = false.
Proof.
  rewrite symbol_in. intros H. repeat (destruct H as [[= <- _]|H];
    [split; [reflexivity|split; [now rewrite (agrees_white u Hu)|reflexivity]]|]). destruct H.
Qed.
Lemma symbol_none c : c <> 58 -> c <> 46 -> c <> 61 -> c <> 123 -> c <> 91 -> c <> 125 -> c <> 93 -> symbol_of c = None.
Proof.
  intros. unfold symbol_of. replace (c =? 58) with false by lia. replace (c =? 46) with false by lia.
  replace (c =? 61) with false by lia. replace (c =? 123) with false by lia. replace (c =? 91) with false by lia.
  replace (c =? 125) with false by lia. replace (c =? 93) with false by lia. reflexivity.
Qed.
Lemma alpha_not_symbol c : is_alphabetic u c = true -> symbol_of c = None.
Proof.
  intros H. destruct (symbol_of c) eqn:E; [|reflexivity]. apply symbol_ascii in E as (E1 & _ & E2).
  rewrite (agrees_alpha u Hu) in H by (unfold is_ascii; lia). congruence.
Qed.
Lemma white_not_symbol c : is_whitespace u c = true -> symbol_of c = None.
Proof. intros H. destruct (symbol_of c) eqn:E; [|reflexivity]. apply symbol_ascii in E as (_ & E & _). congruence. Qed.
Lemma digit_ascii c : ascii_is_digit c = true -> c < 128 /\ symbol_of c = None /\ ident_start u c = false.
Proof.
  unfold ascii_is_digit. intros H. split; [lia|]. split; [apply symbol_none; lia|]. unfold ident_start, underscore, sigil.
  rewrite (agrees_alpha u Hu) by (unfold is_ascii; lia). unfold ascii_is_letter, ascii_is_upper, ascii_is_lower. lia.
Qed.
Lemma white_ascii c : c < 128 -> ascii_is_white c = false -> is_whitespace u c = false.
Proof. intros H1 H2. rewrite (agrees_white u Hu); [exact H2|]. unfold is_ascii. lia. Qed.
Lemma alpha_white c : is_alphabetic u c = true -> is_whitespace u c = false.
Proof. intros H. destruct (is_whitespace u c) eqn:E; [|reflexivity]. apply Hw in E. congruence. Qed.
Lemma letter_alpha c : ascii_is_letter c = true -> is_alphabetic u c = true.
Proof.
  intros H. rewrite (agrees_alpha u Hu); [exact H|].
  unfold is_ascii, ascii_is_letter, ascii_is_upper, ascii_is_lower in *. lia.
Qed.
Lemma white_step c i rest : is_whitespace u c = true -> lex_step u i c rest = ([], [], i + clen c, rest).
Proof.
  intros H. unfold lex_step. rewrite white_not_symbol by exact H.
  assert (ident_start u c = false) as ->.
  { unfold ident_start. rewrite (Hw c H). unfold underscore, sigil.
    destruct (c =? 95) eqn:E1; [assert (c = 95) by lia; subst; rewrite (white_ascii 95) in H; [discriminate|lia|reflexivity]|].
    destruct (c =? 36) eqn:E2; [assert (c = 36) by lia; subst; rewrite (white_ascii 36) in H; [discriminate|lia|reflexivity]|].
    reflexivity. }
  assert (ascii_is_digit c = false) as ->.
  { destruct (ascii_is_digit c) eqn:E; [|reflexivity]. unfold ascii_is_digit in E.
    rewrite white_ascii in H; [discriminate|lia|]. unfold ascii_is_white. lia. }
  assert (c =? quote = false) as ->.
  { unfold quote. destruct (c =? 39) eqn:E; [|reflexivity]. assert (c = 39) by lia. subst.
    rewrite (white_ascii 39) in H; [discriminate|lia|reflexivity]. }
  assert (c =? hash = false) as ->.
  { unfold hash. destruct (c =? 35) eqn:E; [|reflexivity]. assert (c = 35) by lia. subst.
    rewrite (white_ascii 35) in H; [discriminate|lia|reflexivity]. }
  now rewrite H.
Qed.

(** ** Comments *)
Lemma hash_not_white : is_whitespace u 35 = false.
Proof. apply white_ascii; [lia|reflexivity]. Qed.
Notation whites := (whites u).
Lemma blank_whites s : blank u s -> whites s.
Proof. intros H. eapply Forall_impl; [|exact H]. cbv beta. tauto. Qed.
Lemma newline_white : is_whitespace u 10 = true.
Proof. now rewrite (agrees_white u Hu). Qed.

(** Sum of the two modes of [read_comment]. *)
Definition no_hash_after_blanks (l : str) : Prop := forall ws r, blank u ws -> l <> ws ++ 35 :: r.
Lemma no_hash_cons c l : is_whitespace u c = true -> c <> 10 -> no_hash_after_blanks l -> no_hash_after_blanks (c :: l).
Proof.
  intros H1 H2 H ws r Hws E. destruct ws as [|d ws].
  - injection E as -> _. rewrite hash_not_white in H1. discriminate.
  - injection E as -> E. inversion Hws; subst. now apply (H ws r).
Qed.
Lemma no_hash_stop c l : c <> 35 -> is_whitespace u c && negb (c =? 10) = false -> no_hash_after_blanks (c :: l).
Proof.
  intros H1 H2 ws r Hws E. destruct ws as [|d ws].
  - injection E as -> _. congruence.
  - injection E as -> E. inversion Hws as [|? ? [H3 H4] H5]; subst. rewrite H3 in H2. cbn in H2. lia.
Qed.
Lemma no_hash_nil : no_hash_after_blanks [].
Proof. intros ws r _ E. destruct ws; discriminate. Qed.

Lemma read_comment_spec l : forall off cur e lines lend o r,
  (no_newline cur -> read_comment u off true cur e l = (lines, lend, o, r) ->
   exists b gap, l = b ++ gap ++ r /\ comment_body u lines (cur ++ b) /\ lend = off + blen b /\
     o = lend + blen gap /\ whites gap /\ comment_ends u (gap ++ r)) /\
  (read_comment u off false [] e l = (lines, lend, o, r) ->
   (exists ws, lines = [] /\ lend = e /\ l = ws ++ r /\ blank u ws /\ o = off + blen ws /\ no_hash_after_blanks l) \/
   (exists ws b gap, l = ws ++ 35 :: b ++ gap ++ r /\ blank u ws /\ comment_body u lines b /\
     lend = off + blen ws + 1 + blen b /\ o = lend + blen gap /\ whites gap /\ comment_ends u (gap ++ r))).
Proof.
  induction l as [|c l IH]; intros off cur e lines lend o r; cbn [read_comment]; split.
  - intros Hc [= <- <- <- <-]. exists [], []. rewrite (app_nil_r cur). cbn [app]. rewrite blen_nil.
    repeat split; try lia; [now constructor|constructor|now left].
  - intros [= <- <- <- <-]. left. exists []. rewrite blen_nil. repeat split; try lia; [constructor|apply no_hash_nil].
  - intros Hc. unfold newline. destruct (c =? 10) eqn:E.
    + assert (c = 10) by lia. subst c. rewrite clen_ascii by lia.
      destruct (read_comment u (off + 1) false [] off l) as [[[ls e'] o'] r'] eqn:Er.
      intros [= <- <- <- <-]. destruct (IH (off + 1) [] off ls e' o' r') as [_ IH2]. specialize (IH2 Er).
      destruct IH2 as [(ws & -> & -> & -> & Hws & -> & Hn)|(ws & b & gap & -> & Hws & Hb & -> & -> & Hg & He)].
      * exists [], (10 :: ws). rewrite (app_nil_r cur), blen_nil, blen_cons, clen_ascii by lia. cbn [app].
        repeat split; try lia.
        -- now constructor.
        -- constructor; [apply newline_white|now apply blank_whites].
        -- right. exists (ws ++ r'). split; [reflexivity|exact Hn].
      * exists (10 :: ws ++ 35 :: b), gap. split; [cbn; now rewrite <- app_assoc|]. split.
        { constructor; assumption. }
        split; [|auto]. rewrite blen_cons, blen_app, blen_cons, !clen_ascii by lia. lia.
    + intros Er. destruct (IH (off + clen c) (cur ++ [c]) e lines lend o r) as [IH1 _].
      destruct IH1 as (b & gap & -> & Hb & -> & -> & Hg & He); [|exact Er|].
      { unfold no_newline in *. rewrite in_app_iff. cbn. intros [H|[H|[]]]; [tauto|lia]. }
      exists (c :: b), gap. rewrite <- app_assoc in Hb. cbn [app] in *. rewrite blen_cons.
      repeat split; auto; lia.
  - unfold newline, hash. destruct (is_whitespace u c && negb (c =? 10)) eqn:E.
    + intros Er. destruct (IH (off + clen c) [] e lines lend o r) as [_ IH2]. specialize (IH2 Er).
      apply andb_true_iff in E as [E1 E2]. apply negb_true_iff in E2.
      assert (c <> 10) as Hc by lia.
      destruct IH2 as [(ws & -> & -> & Hl & Hws & -> & Hn)|(ws & b & gap & -> & Hws & Hb & -> & -> & Hg & He)].
      * left. exists (c :: ws). rewrite blen_cons. subst l. repeat split; try lia; [constructor; auto|].
        now apply no_hash_cons.
      * right. exists (c :: ws), b, gap. rewrite blen_cons. repeat split; auto; try lia. constructor; auto.
    + destruct (c =? 35) eqn:E2.
      * assert (c = 35) by lia. subst c. rewrite clen_ascii by lia. intros Er.
        destruct (IH (off + 1) [] e lines lend o r) as [IH1 _].
        destruct IH1 as (b & gap & -> & Hb & -> & -> & Hg & He); [intros []|exact Er|].
        right. exists [], b, gap. rewrite blen_nil. repeat split; auto; try lia. constructor.
      * intros [= <- <- <- <-]. left. exists []. rewrite blen_nil. repeat split; try lia; [constructor|].
        apply no_hash_stop; [lia|exact E].
Qed.

(** Completeness for comments. *)
Lemma read_line l : forall off cur e rest, no_newline l ->
  read_comment u off true cur e (l ++ rest) = read_comment u (off + blen l) true (cur ++ l) e rest.
Proof.
  induction l as [|c l IH]; intros off cur e rest Hl.
  - now rewrite app_nil_r, blen_nil, N.add_0_r.
  - assert (c <> 10) by (intros ->; apply Hl; now left). cbn [app read_comment]. unfold newline.
    replace (c =? 10) with false by lia. rewrite IH by (intros H1; apply Hl; now right).
    rewrite blen_cons, <- app_assoc, N.add_assoc. reflexivity.
Qed.
Lemma read_blanks ws : forall off e rest, blank u ws ->
  read_comment u off false [] e (ws ++ rest) = read_comment u (off + blen ws) false [] e rest.
Proof.
  induction ws as [|c ws IH]; intros off e rest H.
  - now rewrite blen_nil, N.add_0_r.
  - inversion H as [|? ? [H1 H2] H3]; subst. cbn [app read_comment]. unfold newline.
    replace (c =? 10) with false by lia. rewrite H1. cbn [andb negb]. rewrite IH by assumption.
    now rewrite blen_cons, N.add_assoc.
Qed.
Lemma read_stop l : forall off e, no_hash_after_blanks l ->
  exists ws r, l = ws ++ r /\ blank u ws /\ read_comment u off false [] e l = ([], e, off + blen ws, r).
Proof.
  induction l as [|c l IH]; intros off e H.
  - exists [], []. rewrite blen_nil, N.add_0_r. repeat split. constructor.
  - cbn [read_comment]. unfold newline, hash. destruct (is_whitespace u c && negb (c =? 10)) eqn:E.
    + apply andb_true_iff in E as [E1 E2]. apply negb_true_iff in E2.
      destruct (IH (off + clen c) e) as (ws & r & -> & Hws & ->).
      { intros ws r Hws ->. apply (H (c :: ws) r); [|reflexivity]. constructor; [split; [exact E1|lia]|exact Hws]. }
      exists (c :: ws), r. rewrite blen_cons, N.add_assoc. repeat split. constructor; [split; [exact E1|lia]|exact Hws].
    + destruct (c =? 35) eqn:E2.
      * assert (c = 35) by lia. subst. exfalso. apply (H [] l); [constructor|reflexivity].
      * exists [], (c :: l). rewrite blen_nil, N.add_0_r. repeat split. constructor.
Qed.
Lemma read_body lines body : comment_body u lines body -> forall off e rest, comment_ends u rest ->
  exists gap r, rest = gap ++ r /\ whites gap /\
    read_comment u off true [] e (body ++ rest) = (lines, off + blen body, off + blen body + blen gap, r).
Proof.
  induction 1 as [l Hl|l ws ls t Hl Hws Hb IH]; intros off e rest He.
  - rewrite read_line by exact Hl. cbn [app]. destruct He as [->|(rest' & -> & Hn)].
    + exists [], []. cbn. rewrite blen_nil, N.add_0_r. repeat split. constructor.
    + cbn [read_comment]. unfold newline. rewrite N.eqb_refl. rewrite clen_ascii by lia.
      destruct (read_stop rest' (off + blen l + 1) (off + blen l) Hn) as (ws & r & -> & Hws & ->).
      exists (10 :: ws), r. rewrite blen_cons, clen_ascii by lia. split; [reflexivity|]. split.
      * constructor; [apply newline_white|now apply blank_whites].
      * f_equal. f_equal. lia.
  - rewrite <- app_assoc. rewrite read_line by exact Hl. cbn [app]. rewrite <- app_assoc. cbn [app read_comment].
    unfold newline. rewrite N.eqb_refl, clen_ascii by lia. rewrite read_blanks by exact Hws. cbn [read_comment].
    rewrite hash_not_white. cbn [andb]. unfold hash. rewrite N.eqb_refl, clen_ascii by lia.
    destruct (IH (off + blen l + 1 + blen ws + 1) (off + blen l) rest He) as (gap & r & -> & Hg & ->).
    exists gap, r. repeat split; [exact Hg|].
    rewrite blen_app, blen_cons, blen_app, blen_cons, !clen_ascii by lia.
    replace (off + (blen l + (1 + (blen ws + (1 + blen t))))) with (off + blen l + 1 + blen ws + 1 + blen t) by lia. reflexivity.
Qed.

(** ** Lengths: the loop makes progress *)
Lemma lex_step_shorter i c rest ts es i' rest' :
  lex_step u i c rest = (ts, es, i', rest') -> (length rest' <= length rest)%nat.
Proof.
  unfold lex_step. destruct (symbol_of c); [now intros [= _ _ _ <-]|].
  assert (forall p a b, span p rest = (a, b) -> (length b <= length rest)%nat) as Hs.
  { intros p a b H. apply span_spec in H as (-> & _). rewrite app_length. lia. }
  destruct (ident_start u c).
  { destruct (span _ rest) as [a b] eqn:E. cbv zeta. destruct (keyword_of _ _); intros [= _ _ _ <-]; eauto. }
  destruct (ascii_is_digit c).
  { destruct (span _ rest) as [a b] eqn:E. cbv zeta. destruct (_ <? _); intros [= _ _ _ <-]; eauto. }
  destruct (c =? quote).
  { destruct (span _ rest) as [a b] eqn:E. pose proof (Hs _ _ _ E) as H. destruct b; intros [= _ _ _ <-]; cbn in *; lia. }
  destruct (c =? hash).
  { destruct (read_comment u (i + 1) true [] (i + 1) rest) as [[[ls e] o] r] eqn:E. intros [= _ _ _ <-].
    apply read_comment_spec in E; [|now intros []]. destruct E as (b & gap & -> & _).
    rewrite !app_length. lia. }
  destruct (is_whitespace u c); now intros [= _ _ _ <-].
Qed.
Lemma lex_total fuel : forall i l, (length l <= fuel)%nat -> exists r, lex u fuel i l = Some r.
Proof.
  induction fuel as [|fuel IH]; intros i [|c l] H; cbn in H; try lia; try (eexists; reflexivity).
  cbn [lex]. destruct (lex_step u i c l) as [[[ts es] i'] r'] eqn:E. apply lex_step_shorter in E.
  destruct (IH i' r') as [[ts' es'] ->]; [lia|]. eexists. reflexivity.
Qed.

(** ** Soundness *)
Lemma lexed_whites gap : forall i r ts, whites gap -> lexed u (i + blen gap) r ts -> lexed u i (gap ++ r) ts.
Proof.
  induction gap as [|c gap IH]; intros i r ts Hg H.
  - rewrite blen_nil, N.add_0_r in H. exact H.
  - inversion Hg; subst. cbn [app]. apply lexed_white; [assumption|]. apply IH; [assumption|].
    rewrite blen_cons in H. fold (clen c). now rewrite <- N.add_assoc.
Qed.
Lemma lex_sound fuel : forall i l ts, lex u fuel i l = Some (ts, []) -> lexed u i l ts.
Proof.
  induction fuel as [|fuel IH]; intros i [|c l] ts; cbn [lex]; try discriminate; try (intros [= <-]; constructor).
  destruct (lex_step u i c l) as [[[ts1 es1] i'] r'] eqn:E.
  destruct (lex u fuel i' r') as [[ts2 es2]|] eqn:El; [|discriminate].
  intros [= <- He]. apply app_eq_nil in He as [-> ->]. specialize (IH i' r' ts2 El). revert E.
  unfold lex_step. destruct (symbol_of c) as [v|] eqn:Es.
  { intros [= <- <- <-]. pose proof (symbol_ascii c v Es) as (Hc & _). apply symbol_in in Es.
    pose proof (lexed_token u i [c] v l ts2) as H. fold (blen [c]) in H. rewrite blen_cons, blen_nil, clen_ascii in H by exact Hc.
    rewrite N.add_0_r in H. apply H; [now apply lexeme_symbol|exact IH]. }
  destruct (ident_start u c) eqn:Ei.
  { destruct (span (ident_continue u) l) as [more rest'] eqn:Esp. apply span_spec in Esp as (-> & Hm & Hr).
    apply ident_stop in Hr. assert (Forall (name_char u) more) as Hm'.
    { eapply Forall_impl; [|exact Hm]. intros d. apply ident_continue_iff. }
    cbv zeta. destruct (keyword_of keywords (c :: more)) as [v|] eqn:Ek.
    - intros [= <- <- <-]. apply (lexed_token u i (c :: more) v rest' ts2); [|exact IH].
      apply lexeme_keyword; [|exact Hr]. now apply keyword_in in Ek.
    - intros H. injection H as H1 H2 H3 H4. subst ts1 i' r'.
      apply (lexed_token u i (c :: more) _ rest' ts2); [|exact IH].
      unfold ident_start in Ei. unfold strip_sigil in *. destruct (c =? sigil) eqn:Ec.
      + unfold sigil in Ec. assert (c = 36) by lia. subst c.
        unfold ident_errors in H2. destruct more as [|d more]; [discriminate|].
        destruct (d =? underscore) eqn:Ed; [discriminate|]. unfold underscore in Ed.
        apply lexeme_raw_ident; auto; [discriminate|cbn; lia].
      + cbn [ident_errors] in H2. destruct (c =? underscore) eqn:Ed; [discriminate|].
        rewrite !orb_false_r in Ei.
        apply lexeme_ident; auto. exact (keyword_none keywords _ Ek). }
  destruct (ascii_is_digit c) eqn:Ed.
  { destruct (span ascii_is_digit l) as [more rest'] eqn:Esp. apply span_spec in Esp as (-> & Hm & Hr).
    cbv zeta. destruct (dec_value (c :: more) <? two64) eqn:Ev; [|discriminate].
    intros [= <- <- <-]. apply (lexed_token u i (c :: more) _ rest' ts2); [|exact IH].
    apply lexeme_integer; [discriminate|apply value_decimal; now constructor| |].
    - change (2 ^ 64) with two64. lia.
    - destruct rest' as [|d r]; [exact I|]. cbn [not_followed_by]. unfold ascii_is_digit in Hr. lia. }
  destruct (c =? quote) eqn:Eq.
  { unfold quote in *. assert (c = 39) by lia. subst c.
    destruct (span (fun d => negb (d =? 39)) l) as [path rest'] eqn:Esp. apply span_spec in Esp as (-> & Hm & Hr).
    destruct rest' as [|q rest']; [discriminate|]. apply negb_false_iff in Hr. assert (q = 39) by lia. subst q.
    intros [= <- <- <-].
    pose proof (lexed_token u i (39 :: path ++ [39]) (TkPath path) rest' ts2) as H.
    fold (blen (39 :: path ++ [39])) in H. rewrite blen_cons, blen_app, blen_cons, blen_nil, !clen_ascii in H by lia.
    replace (i + (1 + (blen path + (1 + 0)))) with (i + 1 + blen path + 1) in H by lia.
    cbn [app] in H. rewrite <- app_assoc in H. cbn [app] in H. apply H; [|exact IH]. apply lexeme_path.
    intros Hin. rewrite Forall_forall in Hm. apply Hm in Hin. discriminate Hin. }
  destruct (c =? hash) eqn:Eh.
  { unfold hash in Eh. assert (c = 35) by lia. subst c.
    destruct (read_comment u (i + 1) true [] (i + 1) l) as [[[lines lend] o] r] eqn:Er.
    intros [= <- <- <-]. apply read_comment_spec in Er; [|now intros []].
    destruct Er as (b & gap & -> & Hb & -> & Ho & Hg & He). cbn [app] in Hb.
    pose proof (lexed_token u i (35 :: b) (TkComment (paragraphs u lines)) (gap ++ r) ts2) as H.
    fold (blen (35 :: b)) in H. rewrite blen_cons, clen_ascii in H by lia. rewrite N.add_assoc in H.
    apply H; [apply (lexeme_comment u lines); [exact Hb|now apply paragraphs_iff|exact He]|]. apply lexed_whites; [exact Hg|]. now rewrite <- Ho. }
  destruct (is_whitespace u c) eqn:Ewh; [|discriminate].
  intros [= <- <- <-]. now apply lexed_white.
Qed.

(** ** Completeness *)
Lemma lexeme_not_white text v rest : lexeme u text v rest ->
  exists c t, text = c :: t /\ is_whitespace u c = false.
Proof.
  destruct 1 as [c v rest H|k v rest H|c name rest H|name rest|digits n rest Hd Hdec|p rest|lines body ps rest].
  - exists c, []. split; [reflexivity|]. apply symbol_in, symbol_ascii in H. tauto.
  - apply reserved_start in H as (c & k' & -> & H & _). exists c, k'. split; [reflexivity|].
    apply alpha_white. now apply letter_alpha.
  - exists c, name. split; [reflexivity|now apply alpha_white].
  - exists 36, name. split; [reflexivity|apply white_ascii; [lia|reflexivity]].
  - destruct digits as [|d ds]; [congruence|]. exists d, ds. split; [reflexivity|].
    apply decimal_value in Hdec as [_ Hdg]. inversion Hdg as [|? ? Hd1 Hd2]; subst. pose proof (digit_ascii d Hd1) as Hd'.
    apply white_ascii; [tauto|]. unfold ascii_is_digit, ascii_is_white in *. lia.
  - exists 39, (p ++ [39]). split; [reflexivity|apply white_ascii; [lia|reflexivity]].
  - exists 35, body. split; [reflexivity|apply hash_not_white].
Qed.
Lemma lexed_skip gap : forall i r ts, whites gap -> lexed u i (gap ++ r) ts -> lexed u (i + blen gap) r ts.
Proof.
  induction gap as [|c gap IH]; intros i r ts Hg H.
  - now rewrite blen_nil, N.add_0_r.
  - inversion Hg; subst. rewrite blen_cons, N.add_assoc. apply IH; [assumption|]. cbn [app] in H.
    remember (c :: gap ++ r) as l eqn:El. destruct H as [i|i c' s ts Hc' H'|i text v rest ts Hl H'].
    + discriminate.
    + injection El as -> ->. exact H'.
    + apply lexeme_not_white in Hl as (c' & t & -> & Hc'). injection El as -> _. congruence.
Qed.
Lemma reserved_letters k v : In (k, v) reserved -> Forall (fun c => ident_continue u c = true) k.
Proof.
  intros H. apply reserved_start in H as (c & k' & -> & H1 & H2). constructor.
  - unfold ident_continue. rewrite (agrees_alnum u Hu).
    + now rewrite H1.
    + unfold is_ascii, ascii_is_letter, ascii_is_upper, ascii_is_lower in *. lia.
  - eapply Forall_impl; [|exact H2]. cbv beta. intros d Hd. unfold ident_continue. rewrite (agrees_alnum u Hu).
    + now rewrite Hd.
    + unfold is_ascii, ascii_is_letter, ascii_is_upper, ascii_is_lower, ascii_is_digit in *. lia.
Qed.
Lemma name_continue name : Forall (name_char u) name -> Forall (fun c => ident_continue u c = true) name.
Proof. intros H. eapply Forall_impl; [|exact H]. intros c. apply ident_continue_iff. Qed.

(** One step on a lexeme; a comment also eats the white space after it. *)
Lemma lexeme_step text v rest i : lexeme u text v rest ->
  exists c t gap r, text = c :: t /\ rest = gap ++ r /\ whites gap /\
    lex_step u i c (t ++ rest) = ([mkToken i (i + blen text) v], [], i + blen text + blen gap, r).
Proof.
  intros H. destruct H as [c v rest H|k v rest H Hr|c name rest Hc Hn Hr Hk|name rest Hne Hh Hn Hr
                          |digits n rest Hd Hdec Hlt Hr|p rest Hp|lines body ps rest Hb Hps He].
  - exists c, [], [], rest. apply symbol_in in H. pose proof (symbol_ascii c v H) as (Ha & _).
    rewrite blen_cons, !blen_nil, clen_ascii, !N.add_0_r by exact Ha. cbn [app].
    repeat split; [constructor|]. unfold lex_step. now rewrite H.
  - pose proof (keyword_reserved k v H) as Hk. pose proof (reserved_letters k v H) as Hl.
    apply reserved_start in H as (c & k' & -> & Hc & _).
    exists c, k', [], rest. rewrite blen_nil, N.add_0_r. repeat split; [constructor|]. unfold lex_step.
    pose proof (letter_alpha c Hc) as Ha. rewrite (alpha_not_symbol c Ha). unfold ident_start. rewrite Ha. cbn [orb].
    inversion Hl; subst. rewrite span_app; [|assumption|now apply ident_stop]. cbv zeta. now rewrite Hk.
  - exists c, name, [], rest. rewrite blen_nil, N.add_0_r. repeat split; [constructor|]. unfold lex_step.
    rewrite (alpha_not_symbol c Hc). unfold ident_start. rewrite Hc. cbn [orb].
    rewrite span_app; [|now apply name_continue|now apply ident_stop]. cbv zeta.
    destruct (keyword_of keywords (c :: name)) as [v'|] eqn:Ek; [apply keyword_in in Ek; now apply Hk in Ek|].
    assert (strip_sigil (c :: name) = c :: name) as ->.
    { cbn. unfold sigil. destruct (c =? 36) eqn:E; [|reflexivity]. assert (c = 36) by lia. subst.
      rewrite (agrees_alpha u Hu) in Hc by reflexivity. discriminate. }
    cbn [ident_errors]. unfold underscore. destruct (c =? 95) eqn:E; [|reflexivity].
    assert (c = 95) by lia. subst. rewrite (agrees_alpha u Hu) in Hc by reflexivity. discriminate.
  - exists 36, name, [], rest. rewrite blen_nil, N.add_0_r. repeat split; [constructor|]. unfold lex_step.
    change (symbol_of 36) with (@None tvariant). cbv iota.
    replace (ident_start u 36) with true by (unfold ident_start, sigil; symmetry; apply orb_true_r). cbv iota.
    rewrite span_app; [|now apply name_continue|now apply ident_stop]. cbv zeta.
    change (keyword_of keywords (36 :: name)) with (@None tvariant). cbv iota.
    change (strip_sigil (36 :: name)) with name. destruct name as [|d name]; [congruence|].
    cbn [ident_errors hd] in *. unfold underscore. replace (d =? 95) with false by lia. reflexivity.
  - apply decimal_value in Hdec as [<- Hdig]. destruct digits as [|d ds]; [congruence|].
    exists d, ds, [], rest. rewrite blen_nil, N.add_0_r. repeat split; [constructor|]. unfold lex_step.
    inversion Hdig; subst. pose proof (digit_ascii d H1) as (_ & -> & ->). rewrite H1.
    rewrite span_app; [|assumption|]. 2: { destruct rest as [|x r]; [exact I|]. cbn in Hr. unfold ascii_is_digit. lia. }
    cbv zeta. change (2 ^ 64) with two64 in Hlt. replace (dec_value (d :: ds) <? two64) with true by lia. reflexivity.
  - exists 39, (p ++ [39]), [], rest. rewrite blen_nil, N.add_0_r. repeat split; [constructor|]. unfold lex_step.
    change (symbol_of 39) with (@None tvariant). cbv iota.
    assert (ident_start u 39 = false) as ->.
    { unfold ident_start. rewrite (agrees_alpha u Hu) by reflexivity. reflexivity. }
    change (ascii_is_digit 39) with false. cbv iota. change (39 =? quote) with true. cbv iota.
    rewrite <- app_assoc. unfold quote. cbn [app]. rewrite span_app; [|
      apply Forall_forall; intros d Hd; apply negb_true_iff; destruct (d =? 39) eqn:E; [assert (d = 39) by lia; subst; contradiction|reflexivity]|reflexivity].
    rewrite blen_cons, blen_app, blen_cons, blen_nil, !clen_ascii by lia.
    replace (i + (1 + (blen p + (1 + 0)))) with (i + 1 + blen p + 1) by lia. reflexivity.
  - apply paragraphs_iff in Hps. subst ps. destruct (read_body lines body Hb (i + 1) (i + 1) rest He) as (gap & r & -> & Hg & Er).
    exists 35, body, gap, r. repeat split; [exact Hg|]. unfold lex_step.
    change (symbol_of 35) with (@None tvariant). cbv iota.
    assert (ident_start u 35 = false) as ->.
    { unfold ident_start. rewrite (agrees_alpha u Hu) by reflexivity. reflexivity. }
    change (ascii_is_digit 35) with false. cbv iota. change (35 =? quote) with false. cbv iota.
    change (35 =? hash) with true. cbv iota. rewrite Er. rewrite blen_cons, clen_ascii by lia.
    rewrite !N.add_assoc. reflexivity.
Qed.

Lemma lex_complete fuel : forall i l ts, (length l <= fuel)%nat -> lexed u i l ts -> lex u fuel i l = Some (ts, []).
Proof.
  induction fuel as [|fuel IH]; intros i l ts Hf H.
  - destruct H as [i|i c s ts Hc Hs|i text v rest ts' Hl Hr]; [reflexivity|cbn in Hf; lia|].
    apply lexeme_not_white in Hl as (c & t & -> & _). cbn in Hf. lia.
  - destruct H as [i|i c s ts Hc Hs|i text v rest ts' Hl Hr].
    + reflexivity.
    + cbn [lex]. rewrite white_step by exact Hc. rewrite (IH (i + clen c) s ts); [reflexivity|cbn in Hf; lia|exact Hs].
    + fold (blen text) in *. destruct (lexeme_step text v rest i Hl) as (c & t & gap & r & -> & -> & Hg & Es).
      cbn [app lex]. rewrite Es.
      rewrite (IH (i + blen (c :: t) + blen gap) r ts'); [reflexivity| |now apply lexed_skip].
      rewrite !app_length in Hf. cbn in Hf. lia.
Qed.

Lemma tokenize_iff s ts : tokenize u s = LexOk ts <-> lexed u 0 s ts.
Proof.
  unfold tokenize. split.
  - destruct (lex u (length s) 0 s) as [[ts' [|e es]]|] eqn:E; try discriminate. intros [= <-]. now apply lex_sound in E.
  - intros H. rewrite (lex_complete (length s) 0 s ts); [reflexivity|lia|exact H].
Qed.
Lemma tokenize_total s : tokenize u s <> LexLoop.
Proof.
  unfold tokenize. destruct (lex_total (length s) 0 s) as [[ts es] ->]; [lia|]. destruct es; discriminate.
Qed.
End Sane.
