From Verif Require Export Footprint DecodeFacts.
From Coq Require Import Lia.

Section U.
Context (u : N).
Notation w := (weight u).

(** What was decoded weighs at most [c] for each byte that was read, and [c] more. *)
Definition light (c : N) (bs : bytes) (v : val) (rest : bytes) : Prop := w v + c * lenN rest <= c * (lenN bs + 1).
Definition light_dec (c : N) (d : decoder) : Prop :=
  forall sz bs, bytes_ok bs -> rpost (fun v rest => suffix rest bs /\ light c bs v rest) (d sz bs).

Lemma suffix_lenN (a b : bytes) : suffix a b -> lenN a <= lenN b.
Proof. intros H. apply suffix_length in H. unfold lenN. lia. Qed.
Lemma psuffix_lenN a b : psuffix a b -> lenN a + 1 <= lenN b.
Proof. intros H. apply psuffix_length in H. unfold lenN. lia. Qed.
Lemma left_len (sz : N) (left rest : bytes) : lenN (left ++ dropN sz rest) + lenN (takeN sz rest) = lenN left + lenN rest.
Proof. rewrite lenN_app, lenN_takeN, lenN_dropN. lia. Qed.

Lemma sumN_app l1 l2 : sumN (l1 ++ l2) = sumN l1 + sumN l2.
Proof. induction l1 as [|n l1 IH]; simpl; [reflexivity|]. rewrite IH. lia. Qed.

Lemma light_one c bs v rest : 1 <= c -> w v = 1 -> suffix rest bs -> light c bs v rest.
Proof. intros Hc Hv Hs. apply suffix_lenN in Hs. unfold light. rewrite Hv. nia. Qed.

Lemma small_loop_light c el : 1 <= c ->
  (forall bs, bytes_ok bs -> rpost (fun v rest => psuffix rest bs /\ w v = 1) (el bs)) ->
  forall fuel bs, (length bs < fuel)%nat -> bytes_ok bs ->
  rpost (fun vs rest => suffix rest bs /\ sumN (map w vs) + c * lenN rest <= c * lenN bs) (small_loop fuel el bs).
Proof.
  intros Hc Hel. induction fuel as [|fuel IH]; intros bs Hf Hok; [lia|].
  cbn [small_loop]. pose proof (Hel bs Hok) as H.
  destruct (el bs) as [v rest|e| | |]; simpl in *; auto.
  - destruct H as [Hps Hv].
    eapply rpost_mapr; [apply IH|].
    + apply psuffix_length in Hps. lia.
    + eapply suffix_ok; [apply psuffix_suffix; exact Hps|exact Hok].
    + simpl. intros vs r [Hs Hvs]. split; [exact (suffix_trans _ _ _ Hs (psuffix_suffix _ _ Hps))|].
      apply psuffix_lenN in Hps. rewrite Hv. nia.
  - destruct e; simpl; auto. split; [apply suffix_nil|]. unfold lenN; cbn [length]; nia.
Qed.

Lemma sized_loop_light c el : light_dec c el ->
  forall fuel bs, (length bs < fuel)%nat -> bytes_ok bs ->
  rpost (fun vs rest => suffix rest bs /\ sumN (map w vs) + c * lenN rest <= c * lenN bs) (sized_loop fuel el bs).
Proof.
  intros Hel. induction fuel as [|fuel IH]; intros bs Hf Hok; [lia|].
  cbn [sized_loop]. pose proof (proj1 (varint_post bs Hok)) as H.
  destruct (deserialize_varint bs) as [sz rest|e| | |]; simpl in *; auto.
  - destruct H as [Hps Hv].
    assert (bytes_ok rest) as Hokr by (eapply suffix_ok; [apply psuffix_suffix; exact Hps|exact Hok]).
    eapply rpost_bindr; [apply Hel; apply bytes_ok_takeN; exact Hokr|].
    intros v left [Hl0 HPv]. pose proof (suffix_lenN _ _ Hl0) as Hl1. apply suffix_take_drop in Hl0 as Hl.
    eapply rpost_mapr; [apply IH|].
    + apply psuffix_length in Hps. apply suffix_length in Hl. lia.
    + eapply suffix_ok; [exact Hl|exact Hokr].
    + simpl. intros vs r [Hs Hvs]. split.
      { eapply suffix_trans; [exact Hs|]. eapply suffix_trans; [exact Hl|now apply psuffix_suffix]. }
      apply psuffix_lenN in Hps. unfold light in HPv. pose proof (left_len sz left rest) as E. nia.
  - destruct e; simpl; auto. split; [apply suffix_nil|]. unfold lenN; cbn [length]; nia.
Qed.

Definition slots_weight (slots : list (N * val)) : N := sumN (map (fun s => w (snd s)) slots).

Lemma struct_loop_light c ds :
  (forall i d, assoc i ds = Some d -> exists c', c' <= c /\ light_dec c' d) ->
  forall fuel slots bs, (length bs < fuel)%nat -> bytes_ok bs ->
  rpost (fun slots' rest => suffix rest bs /\ slots_weight slots' + c * lenN rest <= slots_weight slots + c * lenN bs)
        (struct_loop fuel ds slots bs).
Proof.
  intros Hds. induction fuel as [|fuel IH]; intros slots bs Hf Hok; [lia|].
  cbn [struct_loop]. pose proof (proj1 (header_post bs Hok)) as H.
  destruct (deserialize_field_header bs) as [[i sz] rest|e| | |]; simpl in *; auto.
  - destruct H as (Hps & _ & _).
    assert (bytes_ok rest) as Hokr by (eapply suffix_ok; [apply psuffix_suffix; exact Hps|exact Hok]).
    destruct (assoc i ds) as [d|] eqn:Ed.
    + destruct (Hds i d Ed) as (c' & Hc' & Hd).
      eapply rpost_bindr; [apply Hd; apply bytes_ok_takeN; exact Hokr|].
      intros v left [Hl0 HPv]. pose proof (suffix_lenN _ _ Hl0) as Hl1. apply suffix_take_drop in Hl0 as Hl.
      eapply rpost_weaken; [apply IH|].
      * apply psuffix_length in Hps. apply suffix_length in Hl. lia.
      * eapply suffix_ok; [exact Hl|exact Hokr].
      * intros s r [Hs Hq]. split.
        { eapply suffix_trans; [exact Hs|]. eapply suffix_trans; [exact Hl|now apply psuffix_suffix]. }
        apply psuffix_lenN in Hps. unfold light in HPv. pose proof (left_len sz left rest) as E.
        assert (slots_weight (get_or_insert i v slots) <= slots_weight slots + w v) as Hg.
        { unfold get_or_insert. destruct (assoc i slots); [lia|]. unfold slots_weight. rewrite map_app, sumN_app. simpl. lia. }
        assert (w v + c' * lenN left <= c' * (lenN (takeN sz rest) + 1)) as H1 by exact HPv.
        assert (w v + c * lenN left <= c * (lenN (takeN sz rest) + 1)) as H2.
        { clear - H1 Hc' Hl1. nia. }
        clear - H2 Hg E Hq Hps. nia.
    + eapply rpost_bindr; [apply skip_post|].
      intros x left Hl0. pose proof (suffix_lenN _ _ Hl0) as Hl1. apply suffix_take_drop in Hl0 as Hl.
      eapply rpost_weaken; [apply IH|].
      * apply psuffix_length in Hps. apply suffix_length in Hl. lia.
      * eapply suffix_ok; [exact Hl|exact Hokr].
      * intros s r [Hs Hq]. split.
        { eapply suffix_trans; [exact Hs|]. eapply suffix_trans; [exact Hl|now apply psuffix_suffix]. }
        apply psuffix_lenN in Hps. pose proof (left_len sz left rest) as E. clear - Hl1 E Hq Hps. nia.
  - destruct e; simpl; auto. split; [apply suffix_nil|]. unfold lenN; cbn [length]; nia.
Qed.

Lemma choice_loop_light c ds :
  (forall i r d, assoc i ds = Some (r, d) -> exists c', c' + 1 <= c /\ light_dec c' d) ->
  forall fuel bs, (length bs < fuel)%nat -> bytes_ok bs ->
  rpost (fun v rest => suffix rest bs /\ w v + c * lenN rest <= c * lenN bs) (choice_loop fuel ds bs).
Proof.
  intros Hds. induction fuel as [|fuel IH]; intros bs Hf Hok; [lia|].
  cbn [choice_loop]. eapply rpost_bindr; [exact (proj1 (header_post bs Hok))|].
  intros [i sz] rest (Hps & _ & _).
  assert (bytes_ok rest) as Hokr by (eapply suffix_ok; [apply psuffix_suffix; exact Hps|exact Hok]).
  pose proof (psuffix_lenN _ _ Hps) as Hlen.
  destruct (assoc i ds) as [[r d]|] eqn:Ed.
  - destruct (Hds i r d Ed) as (c' & Hc' & Hd).
    eapply rpost_bindr; [apply Hd; apply bytes_ok_takeN; exact Hokr|].
    intros v left [Hl0 HPv]. pose proof (suffix_lenN _ _ Hl0) as Hl1. apply suffix_take_drop in Hl0 as Hl. cbv zeta.
    pose proof (left_len sz left rest) as E. unfold light in HPv.
    assert (1 + w v + c * lenN left <= c * (lenN (takeN sz rest) + 1)) as H2 by (clear - HPv Hc' Hl1; nia).
    assert (suffix [] bs /\ w (VChoice i v None) + c * lenN (@nil N) <= c * lenN bs) as Hnone.
    { split; [apply suffix_nil|]. cbn [weight]; change (lenN (@nil N)) with 0; clear - H2 E Hlen; nia. }
    destruct r; try exact Hnone.
    eapply rpost_bindr; [apply IH|].
    + apply psuffix_length in Hps. apply suffix_length in Hl. lia.
    + eapply suffix_ok; [exact Hl|exact Hokr].
    + simpl. intros fb r [Hs HQ]. split.
      { eapply suffix_trans; [exact Hs|]. eapply suffix_trans; [exact Hl|now apply psuffix_suffix]. }
      clear - H2 E Hlen HQ. nia.
  - eapply rpost_bindr; [apply skip_post|].
    intros x left Hl0. pose proof (suffix_lenN _ _ Hl0) as Hl1. apply suffix_take_drop in Hl0 as Hl.
    pose proof (left_len sz left rest) as E.
    eapply rpost_weaken; [apply IH|].
    + apply psuffix_length in Hps. apply suffix_length in Hl. lia.
    + eapply suffix_ok; [exact Hl|exact Hokr].
    + intros s r [Hs HQ]. split.
      { eapply suffix_trans; [exact Hs|]. eapply suffix_trans; [exact Hl|now apply psuffix_suffix]. }
      clear - Hl1 E Hlen HQ. nia.
Qed.

Lemma breadth_pos t : 1 <= breadth t.
Proof. destruct t; cbn [breadth]; lia. Qed.

Lemma sumN_in (l : list N) n : In n l -> n <= sumN l.
Proof. induction l as [|m l IH]; cbn [sumN In]; [tauto|]. intros [->|H]; [lia|]. specialize (IH H). lia. Qed.

Lemma breadth_field (f : field_of ty) fs : In f fs -> 1 + breadth (f_type f) <= sumN (map (fun f => 1 + breadth (f_type f)) fs).
Proof. intros H. apply sumN_in. apply in_map_iff. eauto. Qed.

Definition slot_weight (o : option val) : N := match o with Some v => w v | None => 0 end.

Lemma sum_assoc_cons (fs : list (field_of ty)) i v slots : NoDup (indices fs) ->
  sumN (map (fun f => slot_weight (assoc (f_index f) ((i, v) :: slots))) fs)
  <= w v + sumN (map (fun f => slot_weight (assoc (f_index f) slots)) fs).
Proof.
  induction fs as [|f fs IH]; intros Hn; [simpl; lia|].
  apply NoDup_cons_iff in Hn as [Hni Hn]. specialize (IH Hn). cbn [map sumN].
  destruct (i =? f_index f) eqn:E.
  - assert (map (fun f => slot_weight (assoc (f_index f) ((i, v) :: slots))) fs = map (fun f => slot_weight (assoc (f_index f) slots)) fs) as ->.
    { apply map_ext_in. intros g Hg. cbn [assoc]. destruct (i =? f_index g) eqn:E2; [|reflexivity].
      exfalso. apply Hni. assert (f_index f = f_index g) as -> by lia. now apply in_map. }
    cbn [assoc]. rewrite E. cbn [slot_weight]. lia.
  - cbn [assoc] in *. rewrite E. lia.
Qed.

Lemma slots_sum (fs : list (field_of ty)) slots : NoDup (indices fs) ->
  sumN (map (fun f => slot_weight (assoc (f_index f) slots)) fs) <= slots_weight slots.
Proof.
  intros Hn. induction slots as [|[i v] slots IH].
  - cbn [assoc slot_weight slots_weight map sumN]. clear Hn. induction fs as [|f fs IH]; simpl; lia.
  - pose proof (sum_assoc_cons fs i v slots Hn). unfold slots_weight in *. cbn [map sumN snd]. lia.
Qed.

Lemma struct_weight (fs : list (field_of ty)) slots :
  w (VStruct (map (fun f => assoc (f_index f) slots) fs))
  = 1 + lenN fs + sumN (map (fun f => slot_weight (assoc (f_index f) slots)) fs).
Proof.
  cbn [weight]. rewrite map_map. induction fs as [|f fs IH]; [reflexivity|].
  cbn [map sumN]. rewrite lenN_cons. unfold slot_weight at 1. lia.
Qed.

Lemma len_le_breadth (fs : list (field_of ty)) : lenN fs <= sumN (map (fun f => 1 + breadth (f_type f)) fs).
Proof. induction fs as [|f fs IH]; [apply N.le_refl|]. cbn [map sumN]. rewrite lenN_cons. lia. Qed.

Lemma decode_light lim : forall t, ty_wf t -> u = 0 \/ no_unit_arrays t -> forall isf psz bs, bytes_ok bs ->
  rpost (fun v rest => suffix rest bs /\ light (breadth t) bs v rest) (decode lim t isf psz bs).
Proof.
  induction t as [| | | | | | |t IH|fs IH|fs IH] using ty_ind'; intros Hwf Hu isf psz bs Hok; cbn [decode breadth].
  - simpl. split; [apply suffix_refl|]. apply light_one; [lia|reflexivity|apply suffix_refl].
  - eapply rpost_mapr; [apply dec_f64_post; exact Hok|]. simpl. intros n rest (Hs & _). split; [exact Hs|]. apply light_one; [lia|reflexivity|exact Hs].
  - eapply rpost_mapr; [apply dec_u64_post; exact Hok|]. simpl. intros n rest (Hs & _). split; [exact Hs|]. apply light_one; [lia|reflexivity|exact Hs].
  - eapply rpost_mapr; [apply dec_u64_post; exact Hok|]. simpl. intros n rest (Hs & _). split; [exact Hs|]. apply light_one; [lia|reflexivity|exact Hs].
  - eapply rpost_mapr; [apply dec_u64_post; exact Hok|]. simpl. intros n rest (Hs & _). split; [exact Hs|]. apply light_one; [lia|reflexivity|exact Hs].
  - unfold reserve. destruct (lim <? psz); simpl; auto. split; [apply suffix_nil|]. unfold light. cbn [weight]; unfold lenN; cbn [length]; lia.
  - unfold reserve. destruct (lim <? psz); simpl; auto.
    destruct (utf8_decode bs) as [s|] eqn:Eu; simpl; auto. apply utf8_decode_char in Eu as [_ <-].
    split; [apply suffix_nil|]. unfold light. cbn [weight]; unfold lenN; cbn [length]; lia.
  - simpl in Hwf. specialize (IH Hwf).
    assert (no_unit_arrays t -> u = 0 \/ no_unit_arrays t) as Hr by now right.
    assert (Hu' : u = 0 \/ is_unit t = false /\ no_unit_arrays t) by (destruct Hu as [->|Hu]; [now left|right; exact Hu]).
    assert (u = 0 \/ no_unit_arrays t) as Hut by tauto. specialize (IH Hut). pose proof (breadth_pos t) as Hb.
    assert (is_unit t = false -> sized_element t = false -> (forall bs, bytes_ok bs -> rpost (fun v rest => w v = 1) (decode lim t false 0 bs)) -> rpost (fun v rest =>
        suffix rest bs /\ light (1 + breadth t) bs v rest)
        (mapr VArr (small_loop (S (length bs)) (fun bs => decode lim t false 0 bs) bs))) as Hsmall.
    { intros Hu1 Hse Hone. eapply rpost_mapr.
      - apply (small_loop_light (1 + breadth t)); [lia| |lia|exact Hok].
        intros bs' Hok'. pose proof (decode_post lim t Hwf false 0 bs' Hok') as P. pose proof (Hone bs' Hok') as P1.
        destruct (decode lim t false 0 bs') as [v rest| | | |]; simpl in *; auto. split; [now apply P|exact P1].
      - simpl. intros vs rest [H1 H2]. split; [exact H1|]. unfold light. cbn [weight]. nia. }
    assert (is_unit t = false -> sized_element t = true -> rpost (fun v rest =>
        suffix rest bs /\ light (1 + breadth t) bs v rest)
        (mapr VArr (sized_loop (S (length bs)) (decode lim t false) bs))) as Hbig.
    { intros Hu1 Hse. eapply rpost_mapr.
      - apply (sized_loop_light (breadth t)); [|lia|exact Hok]. intros sz bs' Hok'. apply (IH false sz bs' Hok').
      - simpl. intros vs rest [H1 H2]. split; [exact H1|]. pose proof (suffix_lenN _ _ H1). unfold light. cbn [weight]. nia. }
    assert (Hm : forall (A : Type) (f : A -> val) (r : res A) (P : A -> bytes -> Prop), rpost P r -> (forall a, w (f a) = 1) -> rpost (fun v (_ : bytes) => w v = 1) (mapr f r)).
    { intros A f r P Hp Hf. eapply rpost_mapr; [exact Hp|]. simpl. intros a rest _. apply Hf. }
    destruct t; try (apply Hsmall; [reflexivity|reflexivity|intros bs' Hok'; cbn [decode]; eapply Hm; [apply dec_u64_post; exact Hok'|reflexivity]]);
      try (apply Hbig; reflexivity).
    + destruct Hu' as [Hu0|[Hbad _]]; [|discriminate Hbad].
      eapply rpost_mapr; [apply dec_u64_post; exact Hok|]. simpl. intros n rest (Hs & _). split; [exact Hs|].
      apply light_one; [cbn [breadth]; lia|cbn [weight]; rewrite Hu0; lia|exact Hs].
    + unfold reserve. destruct (lim <? 8 * psz); [exact I|].
      apply Hsmall; [reflexivity|reflexivity|intros bs' Hok'; cbn [decode]; eapply Hm; [apply dec_f64_post; exact Hok'|reflexivity]].
  - simpl in Hwf. destruct Hwf as [Hnd Hwf]. apply allP_Forall in Hwf. rewrite Forall_forall in IH, Hwf.
    assert (forall f, In f fs -> u = 0 \/ no_unit_arrays (f_type f)) as Huf.
    { intros f Hin. destruct Hu as [->|Hu]; [now left|right]. cbn [no_unit_arrays] in Hu. apply allP_Forall in Hu. rewrite Forall_forall in Hu. now apply Hu. }
    set (c := sumN (map (fun f => 1 + breadth (f_type f)) fs)) in *.
    eapply rpost_bindr.
    + apply (struct_loop_light c); [|lia|exact Hok].
      intros i d Hd. rewrite assoc_map_fields in Hd.
      destruct (find_field i fs) as [f|] eqn:Ef; [|discriminate]. simpl in Hd. injection Hd as <-.
      apply find_field_in in Ef. destruct Ef as [Hin _]. exists (breadth (f_type f)). split.
      * pose proof (breadth_field f fs Hin). fold c in H. lia.
      * intros sz bs' Hok'. apply (IH f Hin); [apply Hwf; exact Hin|now apply Huf|exact Hok'].
    + intros slots rest [Hs Hq]. destruct (missing_required fs slots) eqn:Em; simpl; auto.
      split; [exact Hs|]. unfold light. change (N.pos 1) with 1. rewrite struct_weight. pose proof (slots_sum fs slots Hnd) as H1.
      pose proof (len_le_breadth fs) as H2. fold c in H2. change (slots_weight []) with 0 in Hq. apply suffix_lenN in Hs. clear - H1 H2 Hq Hs. nia.
  - simpl in Hwf. destruct Hwf as [Hnd Hwf]. apply allP_Forall in Hwf. rewrite Forall_forall in IH, Hwf.
    assert (forall f, In f fs -> u = 0 \/ no_unit_arrays (f_type f)) as Huf.
    { intros f Hin. destruct Hu as [->|Hu]; [now left|right]. cbn [no_unit_arrays] in Hu. apply allP_Forall in Hu. rewrite Forall_forall in Hu. now apply Hu. }
    set (c := sumN (map (fun f => 1 + breadth (f_type f)) fs)) in *.
    eapply rpost_weaken.
    + apply (choice_loop_light c); [|lia|exact Hok].
      intros i r d Hd.
      change (fun f : field_of ty => (f_index f, (f_rule f, decode lim (f_type f) true)))
        with (fun f : field_of ty => (f_index f, (fun f => (f_rule f, decode lim (f_type f) true)) f)) in Hd.
      rewrite (assoc_map_fields (fun f => (f_rule f, decode lim (f_type f) true))) in Hd.
      destruct (find_field i fs) as [f|] eqn:Ef; [|discriminate]. simpl in Hd. injection Hd as <- <-.
      pose proof (find_field_in _ _ _ Ef) as [Hin _]. exists (breadth (f_type f)). split.
      * pose proof (breadth_field f fs Hin). fold c in H. lia.
      * intros sz bs' Hok'. apply (IH f Hin); [apply Hwf; exact Hin|now apply Huf|exact Hok'].
    + simpl. intros v rest [H1 H2]. split; [exact H1|]. unfold light. apply suffix_lenN in H1. clear - H1 H2. nia.
Qed.

Lemma deserialize_light lim t bs v rest : ty_wf t -> u = 0 \/ no_unit_arrays t -> bytes_ok bs ->
  deserialize lim t bs = Ok v rest -> w v <= breadth t * (lenN bs + 1).
Proof.
  intros Ht Hu Hok E. pose proof (decode_light lim t Ht Hu true (lenN bs) bs Hok) as P. unfold deserialize in E. rewrite E in P.
  destruct P as [_ P]. unfold light in P. lia.
Qed.
End U.
