(** The generated TypeScript readers on messages seen as sequences of complete fields (Fields.v). *)
From Verif Require Export TsDecFacts2 FieldsFacts.

Definition item_faithful (it : item) : Prop :=
  match it with IField _ v => ts_faithful v | IRaw _ _ _ => True end.

(** The TypeScript reader's value for index [i]: that of the last field with this index. *)
Definition last_value (gs : list (field_of ty)) (its : list item) (i : N) : option val :=
  first_value gs (rev its) i.

Lemma ts_item_at gs w off it r : view_ok w -> item_ok gs it -> lenN (item_bytes it) < two64 ->
  vrest w off = item_bytes it ++ r ->
  exists off1 w', ts_deserialize_header w off = JOk (off1, item_index it, lenN (item_payload it)) /\
    off1 + lenN (item_payload it) = off + lenN (item_bytes it) /\
    off + lenN (item_bytes it) <= vlen w /\
    new_view (vbuf w) (voff w + off1) (lenN (item_payload it)) = JOk w' /\
    view_ok w' /\ vlen w' = lenN (item_payload it) /\ vrest w' 0 = item_payload it /\
    vrest w (off + lenN (item_bytes it)) = r.
Proof.
  intros Hv Hit Hl E.
  assert (bytes_ok r) as Hr.
  { pose proof (vrest_ok w off Hv) as H. rewrite E in H. now apply bytes_ok_app in H. }
  pose proof (item_header gs it r Hit Hl Hr) as Hd. rewrite <- E in Hd.
  destruct (ts_header_step w off _ _ _ Hv Hd) as (Hoff & Er & Eh).
  assert (item_bytes it <> []) as Hne.
  { pose proof (item_len_pos gs it Hit Hl). destruct (item_bytes it); [cbn in *; lia|discriminate]. }
  pose proof (vrest_le w off _ _ Hv E Hne) as Hle.
  pose proof (vrest_len w off Hv) as Hlen. rewrite E in Hlen.
  pose proof (item_payload_len it) as Hpl.
  set (off1 := vlen w - lenN (item_payload it ++ r)) in *.
  assert (off1 <= vlen w) as Ho1 by lia.
  destruct (new_view_sub w off1 _ _ Hv Ho1 Er) as (w' & Hn & Hok & Hvl & Hvr).
  exists off1, w'. repeat split; auto; try apply Hok.
  - subst off1. rewrite !lenN_app in *. lia.
  - now apply vrest_app.
Qed.

Lemma ts_item_decodes gs f v g w : fields_wf gs -> item_ok gs (IField f v) -> ts_faithful v ->
  find_field (f_index f) gs = Some g -> lenN (item_bytes (IField f v)) < two64 ->
  view_ok w -> vlen w = lenN (spec_encode true v (f_type f)) -> vrest w 0 = spec_encode true v (f_type f) ->
  ts_decode (f_type g) true (lenN (spec_encode true v (f_type f))) w 0
    = JOk (lenN (spec_encode true v (f_type f)), js_val (migrate v (f_type f) (f_type g))).
Proof.
  intros Hwf [Hi (Hw & Ht & Hc)] Hf Eg Hl Hv Hvl Hvr. cbn [item_index] in *. rewrite Eg in Hc.
  pose proof (find_field_in _ _ _ Eg) as [Hg _]. unfold fields_wf in Hwf. rewrite Forall_forall in Hwf.
  apply treads_at; auto; [apply treads_all|apply (Hwf g Hg)|].
  pose proof (item_payload_len (IField f v)) as H. cbn [item_payload] in H. lia.
Qed.

Definition tadd (gs : list (field_of ty)) (slots : list (N * val)) (it : item) : list (N * val) :=
  match it with
  | IField f v => match find_field (f_index f) gs with
                  | Some g => (f_index f, js_val (migrate v (f_type f) (f_type g))) :: slots
                  | None => slots
                  end
  | IRaw _ _ _ => slots
  end.

Definition tsds (gs : list (field_of ty)) : list (N * tdecoder) :=
  map (fun f => (f_index f, ts_decode (f_type f) true)) gs.
Definition tcds (gs : list (field_of ty)) : list (N * (rule * tdecoder)) :=
  map (fun f => (f_index f, (f_rule f, ts_decode (f_type f) true))) gs.

Lemma ts_struct_loop_items gs : fields_wf gs -> forall its fuel slots w off,
  Forall (item_ok gs) its -> Forall item_faithful its ->
  lenN (items_bytes its) < two64 -> (length (items_bytes its) < fuel)%nat ->
  view_ok w -> vrest w off = items_bytes its ->
  ts_struct_loop fuel (tsds gs) slots w off = JOk (fold_left (tadd gs) its slots).
Proof.
  intros Hwf. induction its as [|it its IH]; intros fuel slots w off Hits Hfa Hl Hf Hv E.
  - destruct fuel; [cbn in Hf; lia|]. cbn [ts_struct_loop fold_left].
    destruct (ts_end w off Hv E) as (-> & _). reflexivity.
  - inversion Hits as [|? ? Hit Hits']; inversion Hfa as [|? ? Hfi Hfa']; subst.
    cbn [items_bytes flat_map] in *. fold (items_bytes its) in *. rewrite lenN_app, app_length in *.
    pose proof (item_len_pos gs it Hit ltac:(lia)) as Hpos.
    destruct fuel as [|fuel]; [lia|]. cbn [ts_struct_loop fold_left].
    destruct (ts_item_at gs w off it _ Hv Hit ltac:(lia) E)
      as (off1 & w' & Eh & Eo & _ & En & Hvo & Hvl & Hvr & Erest).
    rewrite Eh. unfold tsds at 1. rewrite tassoc_fields.
    destruct it as [f v|i ie p]; cbn [item_index item_payload tadd] in *.
    + destruct (find_field (f_index f) gs) as [g|] eqn:Eg; cbn [omap].
      * rewrite En. cbn [jbind]. rewrite (ts_item_decodes gs f v g) by (auto; lia).
        cbn [jbind fst snd]. rewrite (N.add_comm _ off1), Eo. apply IH; auto; lia.
      * rewrite Eo. apply IH; auto; lia.
    + destruct Hit as (_ & Enf & _). rewrite Enf. cbn [omap]. rewrite Eo. apply IH; auto; lia.
Qed.

Lemma first_value_app gs a b i : find_field i gs <> None ->
  first_value gs (a ++ b) i = match first_value gs a i with Some x => Some x | None => first_value gs b i end.
Proof.
  intros Hk. induction a as [|[f v|j ie p] a IH]; cbn [app first_value]; auto.
  destruct (f_index f =? i); [|exact IH]. destruct (find_field i gs); congruence.
Qed.

Lemma tassoc_tadd gs its : forall slots i, find_field i gs <> None ->
  tassoc i (fold_left (tadd gs) its slots) =
    match omap js_val (last_value gs its i) with Some x => Some x | None => tassoc i slots end.
Proof.
  unfold last_value. induction its as [|it its IH]; intros slots i Hk; [reflexivity|].
  cbn [fold_left rev]. rewrite IH by exact Hk. rewrite first_value_app by exact Hk.
  destruct (first_value gs (rev its) i) as [x|]; [reflexivity|]. cbn [omap].
  destruct it as [f v|j ie p]; cbn [tadd first_value]; [|reflexivity].
  destruct (f_index f =? i) eqn:E.
  - assert (f_index f = i) by lia. subst i. destruct (find_field (f_index f) gs) as [g|]; [|congruence].
    cbn [tassoc omap]. now rewrite N.eqb_refl.
  - destruct (find_field (f_index f) gs); cbn [tassoc omap]; [now rewrite E|reflexivity].
Qed.

Lemma last_value_none gs its i : find_field i gs <> None -> Forall (item_ok gs) its ->
  last_value gs its i = None <-> (forall it, In it its -> item_index it <> i).
Proof.
  intros Hk Hits. unfold last_value. rewrite first_value_none; auto; [|now apply Forall_rev].
  split; intros H it Hin; apply H; [now apply -> in_rev|now apply in_rev].
Qed.

Lemma ts_struct_items gs its w : ty_wf (TStruct gs) -> Forall (item_ok gs) its ->
  Forall item_faithful its -> lenN (items_bytes its) < two64 -> view_ok w -> vrest w 0 = items_bytes its ->
  (required_missing gs its /\ ts_deserialize (TStruct gs) w = TsError) \/
  (~ required_missing gs its /\ ts_deserialize (TStruct gs) w =
     TsMessage (VStruct (map (fun g => omap js_val (last_value gs its (f_index g))) gs))).
Proof.
  intros Hg Hits Hfa Hl Hv E. destruct Hg as [Hn Hwf]. apply allP_Forall in Hwf.
  unfold ts_deserialize. cbn [ts_decode]. cbv zeta. fold (tsds gs).
  rewrite (ts_struct_loop_items gs Hwf its); auto.
  2:{ pose proof (view_len w _ Hv E) as H. destruct Hv as [Hv _]. unfold lenN in *. lia. }
  cbn [jbind].
  assert (forall g, In g gs -> tassoc (f_index g) (fold_left (tadd gs) its [])
                              = omap js_val (last_value gs its (f_index g))) as Hs.
  { intros g Hg. rewrite tassoc_tadd; [now destruct (omap _ _)|]. rewrite find_field_nodup; auto. discriminate. }
  assert (forall g, In g gs -> last_value gs its (f_index g) = None <->
                               (forall it, In it its -> item_index it <> f_index g)) as Hnone.
  { intros g Hg. apply last_value_none; [|exact Hits]. rewrite find_field_nodup; auto. discriminate. }
  destruct (ts_missing gs (fold_left (tadd gs) its [])) eqn:Em.
  - left. split; [|reflexivity]. apply existsb_exists in Em as (g & Hg & He). exists g.
    split; [exact Hg|]. destruct (f_rule g); try discriminate He. split; [reflexivity|].
    apply (Hnone g Hg). rewrite Hs in He by exact Hg.
    destruct (last_value gs its (f_index g)); [discriminate|reflexivity].
  - right. split.
    + intros (g & Hg & Hr & Hall). apply (Hnone g Hg) in Hall.
      assert (ts_missing gs (fold_left (tadd gs) its []) = true); [|congruence].
      apply existsb_exists. exists g. split; [exact Hg|]. rewrite Hr, Hs, Hall by exact Hg. reflexivity.
    + do 2 f_equal. apply map_ext_in. intros g Hg. now rewrite Hs.
Qed.

(** ** Choices *)
Lemma ts_choice_items gs : fields_wf gs -> forall its fuel f v g w off rest,
  (forall it, In it its -> item_ok gs it /\ find_field (item_index it) gs = None) ->
  item_ok gs (IField f v) -> ts_faithful v -> find_field (f_index f) gs = Some g ->
  lenN (items_bytes its ++ item_bytes (IField f v)) < two64 ->
  vlen w - off < N.of_nat fuel -> view_ok w ->
  vrest w off = items_bytes its ++ item_bytes (IField f v) ++ rest ->
  let k := off + lenN (items_bytes its ++ item_bytes (IField f v)) in
  k <= vlen w /\
  ts_choice_loop fuel (tcds gs) w off =
    match f_rule g with
    | Optional => jbind (ts_choice_loop fuel (tcds gs) (sub_from w k) 0)
                    (fun fb => JOk (VChoice (f_index f) (js_val (migrate v (f_type f) (f_type g))) (Some fb)))
    | _ => JOk (VChoice (f_index f) (js_val (migrate v (f_type f) (f_type g))) None)
    end.
Proof.
  intros Hwf. induction its as [|it its IH]; intros fuel f v g w off rest Hits Hf Hfa Eg Hl Hfu Hv E k; subst k.
  - cbn [items_bytes flat_map app] in *.
    destruct fuel as [|fuel]; [lia|]. cbn [ts_choice_loop].
    destruct (ts_item_at gs w off (IField f v) _ Hv Hf ltac:(lia) E)
      as (off1 & w' & Eh & Eo & Ek & En & Hvo & Hvl & Hvr & Erest).
    cbn [item_index item_payload] in *. split; [exact Ek|].
    rewrite Eh. cbn [jbind]. unfold tcds at 1.
    rewrite (tassoc_fields (fun f => (f_rule f, ts_decode (f_type f) true))), Eg. cbn [omap].
    rewrite En. cbn [jbind]. rewrite (ts_item_decodes gs f v g) by (auto; lia). cbn [jbind fst snd].
    destruct (f_rule g); try reflexivity. rewrite (N.add_comm _ off1), Eo.
    replace (vlen w <? off + lenN (item_bytes (IField f v))) with false by lia.
    unfold new_view.
    replace (voff w + (off + lenN (item_bytes (IField f v))) + (vlen w - (off + lenN (item_bytes (IField f v))))
             <=? lenN (vbuf w)) with true by (destruct Hv; lia).
    cbn [jbind]. fold (sub_from w (off + lenN (item_bytes (IField f v)))).
    pose proof (item_len_pos gs _ Hf Hl) as Hpos. unfold lenN in Hpos, Ek.
    rewrite (ts_choice_fuel _ fuel (S fuel) (sub_from w (off + lenN (item_bytes (IField f v)))) 0);
      [reflexivity|apply sub_from_ok; auto| |]; cbn [sub_from vlen]; unfold lenN; lia.
  - destruct (Hits it (or_introl eq_refl)) as [Hit Hunk].
    cbn [items_bytes flat_map] in *. fold (items_bytes its) in *. rewrite <- app_assoc in *.
    rewrite lenN_app in Hl.
    destruct fuel as [|fuel]; [lia|]. cbn [ts_choice_loop].
    destruct (ts_item_at gs w off it _ Hv Hit ltac:(lia) E)
      as (off1 & w' & Eh & Eo & Ek & En & Hvo & Hvl & Hvr & Erest).
    pose proof (item_len_pos gs it Hit ltac:(lia)) as Hpos.
    assert (0 < lenN (item_bytes it)) as Hpos' by (unfold lenN; lia).
    rewrite Eh. cbn [jbind]. unfold tcds at 1.
    rewrite (tassoc_fields (fun f => (f_rule f, ts_decode (f_type f) true))), Hunk. cbn [omap].
    rewrite Eo. rewrite (lenN_app (item_bytes it)), N.add_assoc.
    destruct (IH fuel f v g w (off + lenN (item_bytes it)) rest) as [H1 H2];
      auto; [intros x Hx; apply Hits; now right|lia|lia|].
    split; [exact H1|]. cbv zeta in *. rewrite H2. destruct (f_rule g); try reflexivity.
    rewrite (ts_choice_fuel _ fuel (S fuel)); [reflexivity|apply sub_from_ok; auto| |];
      cbn [sub_from vlen]; lia.
Qed.

Lemma ts_choice_reads gs its f v g w rest : ty_wf (TChoice gs) ->
  (forall it, In it its -> item_ok gs it /\ find_field (item_index it) gs = None) ->
  item_ok gs (IField f v) -> ts_faithful v -> find_field (f_index f) gs = Some g ->
  lenN (items_bytes its ++ item_bytes (IField f v)) < two64 -> view_ok w ->
  vrest w 0 = items_bytes its ++ item_bytes (IField f v) ++ rest ->
  let k := lenN (items_bytes its ++ item_bytes (IField f v)) in
  let x := js_val (migrate v (f_type f) (f_type g)) in
  ts_deserialize (TChoice gs) w =
    match f_rule g with
    | Optional =>
        match ts_deserialize (TChoice gs) (mkView (vbuf w) (voff w + k) (vlen w - k)) with
        | TsMessage fb => TsMessage (VChoice (f_index f) x (Some fb))
        | other => other
        end
    | _ => TsMessage (VChoice (f_index f) x None)
    end.
Proof.
  intros Hg Hits Hf Hfa Eg Hl Hv E k x. destruct Hg as [Hn Hwf]. apply allP_Forall in Hwf.
  unfold ts_deserialize. cbn [ts_decode]. cbv zeta. fold (tcds gs). cbn [vbuf vlen].
  destruct (ts_choice_items gs Hwf its (S (length (vbuf w))) f v g w 0 rest) as [Hk Hc]; auto.
  { destruct Hv as [Hv _]. unfold lenN in Hv. lia. }
  cbv zeta in Hk, Hc. rewrite N.add_0_l in *. rewrite Hc. fold k. fold x.
  change (mkView (vbuf w) (voff w + k) (vlen w - k)) with (sub_from w k).
  destruct (f_rule g); cbn [jbind]; try reflexivity.
  destruct (ts_choice_loop _ _ (sub_from w k) 0); reflexivity.
Qed.

Lemma ts_choice_none gs its w : ty_wf (TChoice gs) ->
  (forall it, In it its -> item_ok gs it /\ find_field (item_index it) gs = None) ->
  lenN (items_bytes its) < two64 -> view_ok w -> vrest w 0 = items_bytes its ->
  ts_deserialize (TChoice gs) w = TsError.
Proof.
  intros Hg Hits Hl Hv E. unfold ts_deserialize. cbn [ts_decode]. cbv zeta. fold (tcds gs).
  assert (forall its fuel off, (forall it, In it its -> item_ok gs it /\ find_field (item_index it) gs = None) ->
    lenN (items_bytes its) < two64 -> (length (items_bytes its) < fuel)%nat -> vrest w off = items_bytes its ->
    ts_choice_loop fuel (tcds gs) w off = JRange) as H.
  { clear its Hits Hl E. induction its as [|it its IH]; intros fuel off Hits Hl Hf E.
    - destruct fuel; [cbn in Hf; lia|]. cbn [ts_choice_loop]. destruct (ts_end w off Hv E) as (-> & _). reflexivity.
    - destruct (Hits it (or_introl eq_refl)) as [Hit Hunk].
      cbn [items_bytes flat_map] in *. fold (items_bytes its) in *. rewrite lenN_app, app_length in *.
      pose proof (item_len_pos gs it Hit ltac:(lia)) as Hpos.
      destruct fuel as [|fuel]; [lia|]. cbn [ts_choice_loop].
      destruct (ts_item_at gs w off it _ Hv Hit ltac:(lia) E)
        as (off1 & w' & Eh & Eo & _ & _ & _ & _ & _ & Erest).
      rewrite Eh. cbn [jbind]. unfold tcds at 1.
      rewrite (tassoc_fields (fun f => (f_rule f, ts_decode (f_type f) true))), Hunk. cbn [omap].
      rewrite Eo. apply IH; auto; try lia. intros x Hx. apply Hits. now right. }
  rewrite (H its); auto.
  pose proof (view_len w _ Hv E) as H'. destruct Hv as [Hv _]. unfold lenN in *. lia.
Qed.
