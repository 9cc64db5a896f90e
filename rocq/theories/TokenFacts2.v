From Verif Require Export TokenFacts.

(** Every token is a piece of the text, and its range says where. *)
Lemma lexed_pieces u i s ts : lexed u i s ts -> forall t, In t ts ->
  exists pre text post, s = pre ++ text ++ post /\ tstart t = i + blen pre /\ tend t = i + blen pre + blen text /\
    lexeme u text (tvar t) post.
Proof.
  induction 1 as [i|i c s ts Hc H IH|i text v rest ts Hl H IH]; intros t Ht; [destruct Ht| |].
  - destruct (IH t Ht) as (pre & text & post & -> & H1 & H2 & H3). exists (c :: pre), text, post.
    rewrite blen_cons. fold (clen c) in *. repeat split; [lia|lia|exact H3].
  - fold (blen text) in *. destruct Ht as [<-|Ht].
    + exists [], text, rest. cbn [tstart tend tvar app]. rewrite blen_nil, N.add_0_r. auto.
    + destruct (IH t Ht) as (pre & text' & post & -> & H1 & H2 & H3). exists (text ++ pre), text', post.
      rewrite blen_app. repeat split; [now rewrite <- app_assoc|lia|lia|exact H3].
Qed.
Lemma lexeme_nonempty u text v rest : lexeme u text v rest -> text <> [].
Proof.
  destruct 1 as [c v rest H|k v rest H|c name rest H|name rest|digits n rest Hd Hdec|p rest|lines body ps rest]; try discriminate; [|exact Hd].
  intros ->. cbn in H. repeat (destruct H as [H|H]; [discriminate H|]). destruct H.
Qed.
Lemma blen_pos s : s <> [] -> 0 < blen s.
Proof. destruct s as [|c s]; [congruence|]. intros _. rewrite blen_cons. pose proof (clen_pos c). lia. Qed.
Lemma lexed_after u i s ts : lexed u i s ts -> Forall (fun t => i <= tstart t) ts.
Proof.
  intros H. apply Forall_forall. intros t Ht. destruct (lexed_pieces u i s ts H t Ht) as (pre & text & post & _ & H1 & _). lia.
Qed.
Lemma lexed_ordered u i s ts : lexed u i s ts ->
  ForallOrdPairs (fun a b => tend a <= tstart b) ts /\ Forall (fun t => tstart t < tend t /\ tend t <= i + blen s) ts.
Proof.
  intros H. split.
  - induction H as [i|i c s ts Hc H IH|i text v rest ts Hl H IH]; [constructor|exact IH|]. constructor; [|exact IH].
    cbn [tend]. now apply lexed_after in H.
  - apply Forall_forall. intros t Ht. destruct (lexed_pieces u i s ts H t Ht) as (pre & text & post & -> & H1 & H2 & H3).
    apply lexeme_nonempty, blen_pos in H3. rewrite !blen_app. lia.
Qed.

Lemma ascii_white_not_alphabetic : white_not_alphabetic ascii_unicode.
Proof.
  intros c H. cbn in *. unfold ascii_is_white, ascii_is_letter, ascii_is_upper, ascii_is_lower in *. lia.
Qed.

Lemma integer_literal u digits n : ascii_agrees u -> white_not_alphabetic u -> digits <> [] -> decimal digits n ->
  tokenize u digits = if n <? 2 ^ 64 then LexOk [mkToken 0 (lenN digits) (TkInteger n)] else LexErr [LexInteger].
Proof.
  intros Hu Hw Hne Hd. pose proof (decimal_value _ _ Hd) as [Hv Hdig].
  assert (blen digits = lenN digits) as Hlen.
  { clear - Hdig. induction Hdig as [|c s H1 H2 IH]; [reflexivity|]. rewrite blen_cons, IH, clen_ascii by (unfold ascii_is_digit in H1; lia).
    unfold lenN. cbn [length]. lia. }
  destruct (n <? 2 ^ 64) eqn:E.
  - apply (tokenize_iff u Hu Hw). rewrite <- Hlen. pose proof (lexed_token u 0 digits (TkInteger n) [] []) as H.
    rewrite app_nil_r in H. apply H; [|constructor]. constructor; auto; [lia|exact I].
  - unfold tokenize. destruct digits as [|d ds]; [congruence|]. inversion Hdig as [|? ? H1 H2]; subst.
    cbn [length lex]. unfold lex_step. pose proof (digit_ascii u Hu d H1) as (_ & -> & ->). rewrite H1.
    pose proof (span_app ascii_is_digit ds [] H2 I) as Hs. rewrite app_nil_r in Hs. rewrite Hs. cbv zeta.
    change (2 ^ 64) with two64 in E. rewrite E. destruct (length ds); reflexivity.
Qed.

Lemma ident_token u s ts t i : ascii_agrees u -> white_not_alphabetic u -> tokenize u s = LexOk ts -> In t ts ->
  tvar t = TkIdentifier i ->
  exists name, i = ident_from u name /\ name <> [] /\ hd 0 name <> 95 /\
    Forall (fun c => is_alphabetic u c = true \/ is_alphanumeric u c = true \/ c = 95) name /\
    (is_alphabetic u (hd 0 name) = true \/ exists pre post, s = pre ++ 36 :: name ++ post).
Proof.
  intros Hu Hw Hs Ht Hi. apply (tokenize_iff u Hu Hw) in Hs.
  destruct (lexed_pieces _ _ _ _ Hs t Ht) as (pre & text & post & E & _ & _ & Hl). rewrite Hi in Hl.
  remember (TkIdentifier i) as v eqn:Ev.
  destruct Hl as [c v rest H|k v rest H Hr|c name rest Hc Hn Hr Hk|name rest Hne Hh Hn Hr
                          |digits n rest Hd Hdec Hlt Hr|p rest Hp|lines body ps rest Hb Hps He]; try discriminate Ev.
  - subst v. cbn in H. repeat (destruct H as [H|H]; [discriminate H|]). destruct H.
  - subst v. cbn in H. repeat (destruct H as [H|H]; [discriminate H|]). destruct H.
  - injection Ev as <-. exists (c :: name). split; [reflexivity|]. split; [discriminate|]. split; [|split; [|left; exact Hc]].
    + cbn. intros ->. rewrite (agrees_alpha u Hu) in Hc by reflexivity. discriminate.
    + constructor; [now left|]. eapply Forall_impl; [|exact Hn]. intros d [Hd|Hd]; auto.
  - injection Ev as <-. exists name. repeat split; auto.
    + eapply Forall_impl; [|exact Hn]. intros d [Hd|Hd]; auto.
    + right. exists pre, rest. exact E.
Qed.
