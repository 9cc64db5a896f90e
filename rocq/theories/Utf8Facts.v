From Verif Require Export BaseFacts Utf8.

Lemma scalarb_ok c : scalarb c = true <-> scalar_ok c.
Proof. unfold scalarb, scalar_ok. lia. Qed.

Lemma utf8_char_decode c rest : scalar_ok c ->
  utf8_decode (utf8_char c ++ rest) = option_map (cons c) (utf8_decode rest).
Proof.
  intros Hc. unfold scalar_ok in Hc. unfold utf8_char.
  destruct (c <? 128) eqn:E1.
  { cbn [app utf8_decode]. now rewrite E1. }
  destruct (c <? 2048) eqn:E2.
  { cbn [app utf8_decode]. unfold inr.
    replace (192 + c / 64 <? 128) with false by lia.
    replace ((194 <=? 192 + c / 64) && (192 + c / 64 <=? 223)) with true by lia.
    replace ((128 <=? 128 + c mod 64) && (128 + c mod 64 <=? 191)) with true by lia.
    replace ((192 + c / 64 - 192) * 64 + (128 + c mod 64 - 128)) with c by lia. reflexivity. }
  destruct (c <? 65536) eqn:E3.
  { cbn [app utf8_decode]. unfold inr.
    pose proof (N.div_div c 64 64 ltac:(discriminate) ltac:(discriminate)) as Hdd.
    change (64 * 64) with 4096 in Hdd.
    set (q := c / 64) in *. assert (c = 64 * q + c mod 64) by lia.
    assert (c mod 64 < 64) by lia. rewrite <- Hdd. clearbody q.
    set (r := c mod 64) in *. clearbody r. subst c.
    replace (224 + q / 64 <? 128) with false by lia.
    replace ((194 <=? 224 + q / 64) && (224 + q / 64 <=? 223)) with false by lia.
    match goal with |- (if ?x then _ else _) = _ => replace x with true by lia end.
    replace ((128 <=? 128 + r) && (128 + r <=? 191)) with true by lia.
    match goal with |- option_map (cons ?x) _ = _ => replace x with (64 * q + r) by lia end.
    reflexivity. }
  cbn [app utf8_decode]. unfold inr.
  pose proof (N.div_div c 64 64 ltac:(discriminate) ltac:(discriminate)) as Hdd.
  pose proof (N.div_div c 4096 64 ltac:(discriminate) ltac:(discriminate)) as Hdd2.
  change (64 * 64) with 4096 in Hdd. change (4096 * 64) with 262144 in Hdd2.
  rewrite <- Hdd2, <- Hdd. clear Hdd Hdd2.
  set (q := c / 64) in *. assert (c = 64 * q + c mod 64) as Hq by lia.
  assert (c mod 64 < 64) as Hr by lia. clearbody q. set (r := c mod 64) in *. clearbody r. subst c.
  set (q2 := q / 64) in *. assert (q = 64 * q2 + q mod 64) as Hq2 by lia.
  assert (q mod 64 < 64) as Hr2 by lia. clearbody q2. set (r2 := q mod 64) in *. clearbody r2.
  subst q.
  set (q3 := q2 / 64) in *. assert (q2 = 64 * q3 + q2 mod 64) as Hq3 by lia.
  assert (q2 mod 64 < 64) as Hr3 by lia. clearbody q3. set (r3 := q2 mod 64) in *. clearbody r3.
  subst q2.
  replace (240 + q3 <? 128) with false by lia.
  replace ((194 <=? 240 + q3) && (240 + q3 <=? 223)) with false by lia.
  match goal with |- (if ?x then _ else _) = _ => replace x with false by lia end.
  match goal with |- (if ?x then _ else _) = _ => replace x with true by lia end.
  match goal with |- (if ?x then _ else _) = _ => replace x with true by lia end.
  match goal with |- option_map (cons ?x) _ = option_map (cons ?y) _ =>
    replace x with y by lia end.
  reflexivity.
Qed.

Lemma utf8_decode_encode s : str_ok s -> utf8_decode (utf8_encode s) = Some s.
Proof.
  induction s as [|c s IH]; intros H; [reflexivity|].
  inversion H; subst. unfold utf8_encode. cbn [flat_map].
  rewrite utf8_char_decode by assumption. fold (utf8_encode s). rewrite IH by assumption.
  reflexivity.
Qed.

Lemma utf8_encode_ok s : str_ok s -> bytes_ok (utf8_encode s).
Proof.
  induction s as [|c s IH]; intros H; [constructor|].
  inversion H as [|? ? Hc Hs]; subst. unfold utf8_encode. cbn [flat_map]. apply bytes_ok_app.
  split; [|exact (IH Hs)]. unfold scalar_ok in Hc.
  unfold utf8_char. destruct (c <? 128) eqn:E1; [repeat constructor; unfold byte_ok; lia|].
  destruct (c <? 2048) eqn:E2; [repeat constructor; unfold byte_ok; lia|].
  destruct (c <? 65536) eqn:E3; repeat constructor; unfold byte_ok; lia.
Qed.

Lemma utf8_decode_sound : forall n bs s, (length bs <= n)%nat ->
  utf8_decode bs = Some s -> str_ok s /\ utf8_encode s = bs.
Proof.
  induction n as [|n IH]; intros bs s Hn H.
  { destruct bs; [|simpl in Hn; lia]. injection H as <-. split; [constructor|reflexivity]. }
  destruct bs as [|b0 r0]; [injection H as <-; split; [constructor|reflexivity]|].
  cbn [utf8_decode] in H. cbn [length] in Hn.
  assert (forall c r s, option_map (cons c) (utf8_decode r) = Some s -> (length r <= n)%nat ->
     exists s', s = c :: s' /\ str_ok s' /\ utf8_encode s' = r) as Hrec.
  { intros c r s0 Ho Hl. destruct (utf8_decode r) as [s'|] eqn:Er; [|discriminate].
    injection Ho as <-. exists s'. split; [reflexivity|]. now apply IH. }
  assert (forall c s r bs, scalar_ok c -> str_ok s -> utf8_encode s = r ->
     utf8_char c ++ r = bs -> str_ok (c :: s) /\ utf8_encode (c :: s) = bs) as Hfin.
  { intros c s0 r bs0 Hc Hs He Hb. split; [constructor; assumption|].
    unfold utf8_encode in *. cbn [flat_map]. now rewrite He. }
  destruct (b0 <? 128) eqn:E1.
  { destruct (Hrec _ _ _ H ltac:(lia)) as (s' & -> & Hs & He).
    eapply Hfin; [|exact Hs|exact He|].
    - unfold scalar_ok; lia.
    - unfold utf8_char. now rewrite E1. }
  destruct r0 as [|b1 r1]; [discriminate|]. cbn [length] in Hn.
  destruct (inr 194 223 b0) eqn:E2.
  { destruct (inr 128 191 b1) eqn:E3; [|discriminate]. unfold inr in *.
    destruct (Hrec _ _ _ H ltac:(lia)) as (s' & -> & Hs & He).
    eapply Hfin; [|exact Hs|exact He|].
    - unfold scalar_ok; lia.
    - unfold utf8_char. replace (_ <? 128) with false by lia. replace (_ <? 2048) with true by lia.
      cbn [app]. f_equal; [|f_equal]; lia. }
  destruct r1 as [|b2 r2]; [discriminate|]. cbn [length] in Hn.
  match type of H with (if ?c then _ else _) = _ => destruct c eqn:E4 end.
  { destruct (inr 128 191 b2) eqn:E3; [|discriminate]. unfold inr in *.
    destruct (Hrec _ _ _ H ltac:(lia)) as (s' & -> & Hs & He).
    eapply Hfin; [|exact Hs|exact He|].
    - unfold scalar_ok; lia.
    - unfold utf8_char. replace (_ <? 128) with false by lia. replace (_ <? 2048) with false by lia.
      replace (_ <? 65536) with true by lia.
      cbn [app]. f_equal; [|f_equal; [|f_equal]]; lia. }
  destruct r2 as [|b3 r3]; [discriminate|]. cbn [length] in Hn.
  match type of H with (if ?c then _ else _) = _ => destruct c eqn:E5; [|discriminate] end.
  destruct (inr 128 191 b2 && inr 128 191 b3) eqn:E6; [|discriminate]. unfold inr in *.
  destruct (Hrec _ _ _ H ltac:(lia)) as (s' & -> & Hs & He).
  eapply Hfin; [|exact Hs|exact He|].
  - unfold scalar_ok; lia.
  - unfold utf8_char. replace (_ <? 128) with false by lia. replace (_ <? 2048) with false by lia.
    replace (_ <? 65536) with false by lia.
    cbn [app]. f_equal; [|f_equal; [|f_equal; [|f_equal]]]; lia.
Qed.

Lemma utf8_decode_char bs s : utf8_decode bs = Some s <-> str_ok s /\ utf8_encode s = bs.
Proof.
  split.
  - apply (utf8_decode_sound (length bs)). lia.
  - intros [Hs <-]. now apply utf8_decode_encode.
Qed.
