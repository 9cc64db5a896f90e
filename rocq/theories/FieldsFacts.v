From Verif Require Export Fields EvolutionFacts2 PrimExtra.

(** ** Fuel is irrelevant once it exceeds the input's length *)
Lemma struct_loop_fuel (ds : list (N * decoder)) :
  (forall i d, assoc i ds = Some d -> dec_ok (fun _ => True) d) ->
  forall n m slots bs, bytes_ok bs -> (length bs < n)%nat -> (length bs < m)%nat ->
  struct_loop n ds slots bs = struct_loop m ds slots bs.
Proof.
  intros Hds. induction n as [|n IH]; intros m slots bs Hok Hn Hm; [lia|].
  destruct m as [|m]; [lia|]. cbn [struct_loop]. pose proof (proj1 (header_post bs Hok)) as H.
  destruct (deserialize_field_header bs) as [[i sz] rest|e| | |]; simpl in H; auto.
  destruct H as (Hps & _ & _).
  assert (bytes_ok rest) as Hokr by (eapply suffix_ok; [apply psuffix_suffix; exact Hps|exact Hok]).
  apply psuffix_length in Hps.
  destruct (assoc i ds) as [d|] eqn:Ed.
  - pose proof (Hds i d Ed sz (takeN sz rest) (bytes_ok_takeN _ _ Hokr)) as H.
    destruct (d sz (takeN sz rest)) as [v left|e| | |]; simpl in *; auto.
    destruct H as [Hl _]. apply suffix_take_drop in Hl. pose proof (suffix_length _ _ Hl).
    apply IH; [eapply suffix_ok; eauto|lia|lia].
  - pose proof (skip_post sz (takeN sz rest)) as H.
    destruct (skip sz (takeN sz rest)) as [v left|e| | |]; simpl in *; auto.
    apply suffix_take_drop in H. pose proof (suffix_length _ _ H).
    apply IH; [eapply suffix_ok; eauto|lia|lia].
Qed.

Lemma choice_loop_fuel (ds : list (N * (rule * decoder))) :
  (forall i r d, assoc i ds = Some (r, d) -> dec_ok (fun _ => True) d) ->
  forall n m bs, bytes_ok bs -> (length bs < n)%nat -> (length bs < m)%nat ->
  choice_loop n ds bs = choice_loop m ds bs.
Proof.
  intros Hds. induction n as [|n IH]; intros m bs Hok Hn Hm; [lia|].
  destruct m as [|m]; [lia|]. cbn [choice_loop]. pose proof (proj1 (header_post bs Hok)) as H.
  destruct (deserialize_field_header bs) as [[i sz] rest|e| | |]; simpl in *; auto.
  destruct H as (Hps & _ & _).
  assert (bytes_ok rest) as Hokr by (eapply suffix_ok; [apply psuffix_suffix; exact Hps|exact Hok]).
  apply psuffix_length in Hps.
  destruct (assoc i ds) as [[r d]|] eqn:Ed.
  - pose proof (Hds i r d Ed sz (takeN sz rest) (bytes_ok_takeN _ _ Hokr)) as H.
    destruct (d sz (takeN sz rest)) as [v left|e| | |]; simpl in *; auto.
    destruct H as [Hl _]. apply suffix_take_drop in Hl. pose proof (suffix_length _ _ Hl).
    destruct r; auto. rewrite (IH m); [reflexivity|eapply suffix_ok; eauto|lia|lia].
  - pose proof (skip_post sz (takeN sz rest)) as H.
    destruct (skip sz (takeN sz rest)) as [v left|e| | |]; simpl in *; auto.
    apply suffix_take_drop in H. pose proof (suffix_length _ _ H).
    apply IH; [eapply suffix_ok; eauto|lia|lia].
Qed.

Lemma sized_loop_fuel (el : decoder) : dec_ok (fun _ => True) el ->
  forall n m bs, bytes_ok bs -> (length bs < n)%nat -> (length bs < m)%nat ->
  sized_loop n el bs = sized_loop m el bs.
Proof.
  intros Hds. induction n as [|n IH]; intros m bs Hok Hn Hm; [lia|].
  destruct m as [|m]; [lia|]. cbn [sized_loop]. pose proof (proj1 (varint_post bs Hok)) as H.
  destruct (deserialize_varint bs) as [sz rest|e| | |]; simpl in *; auto.
  destruct H as (Hps & _).
  assert (bytes_ok rest) as Hokr by (eapply suffix_ok; [apply psuffix_suffix; exact Hps|exact Hok]).
  apply psuffix_length in Hps.
  pose proof (Hds sz (takeN sz rest) (bytes_ok_takeN _ _ Hokr)) as H.
  destruct (el sz (takeN sz rest)) as [v left|e| | |]; simpl in *; auto.
  destruct H as [Hl _]. apply suffix_take_drop in Hl. pose proof (suffix_length _ _ Hl).
  rewrite (IH m); [reflexivity|eapply suffix_ok; eauto|lia|lia].
Qed.

Lemma small_loop_fuel (el : bytes -> res val) :
  (forall bs, bytes_ok bs -> rpost (fun v rest => psuffix rest bs) (el bs)) ->
  forall n m bs, bytes_ok bs -> (length bs < n)%nat -> (length bs < m)%nat ->
  small_loop n el bs = small_loop m el bs.
Proof.
  intros Hds. induction n as [|n IH]; intros m bs Hok Hn Hm; [lia|].
  destruct m as [|m]; [lia|]. cbn [small_loop]. pose proof (Hds bs Hok) as H.
  destruct (el bs) as [v rest|e| | |]; simpl in *; auto.
  pose proof (psuffix_length _ _ H). apply psuffix_suffix in H.
  rewrite (IH m); [reflexivity|eapply suffix_ok; eauto|lia|lia].
Qed.

(** The decoders of a struct's fields. *)
Definition sds (lim : N) (gs : list (field_of ty)) : list (N * decoder) :=
  map (fun f => (f_index f, decode lim (f_type f) true)) gs.
Definition cds (lim : N) (gs : list (field_of ty)) : list (N * (rule * decoder)) :=
  map (fun f => (f_index f, (f_rule f, decode lim (f_type f) true))) gs.

Lemma assoc_sds lim gs i :
  assoc i (sds lim gs) = omap (fun f => decode lim (f_type f) true) (find_field i gs).
Proof. apply assoc_map_fields. Qed.
Lemma assoc_cds lim gs i :
  assoc i (cds lim gs) = omap (fun f => (f_rule f, decode lim (f_type f) true)) (find_field i gs).
Proof. apply (assoc_map_fields (fun f => (f_rule f, decode lim (f_type f) true))). Qed.

Lemma decode_dec_ok lim t isf : ty_wf t -> dec_ok (fun _ => True) (decode lim t isf).
Proof.
  intros Ht sz bs Hok. eapply rpost_weaken; [apply (decode_post lim t Ht isf sz bs Hok)|].
  simpl. tauto.
Qed.

Definition fields_wf (gs : list (field_of ty)) : Prop :=
  Forall (fun f => f_index f <= max_index /\ ty_wf (f_type f)) gs.

Lemma sds_ok lim gs : fields_wf gs ->
  forall i d, assoc i (sds lim gs) = Some d -> dec_ok (fun _ => True) d.
Proof.
  unfold fields_wf. intros Hwf i d. rewrite assoc_sds. rewrite Forall_forall in Hwf.
  destruct (find_field i gs) as [g|] eqn:E; [|discriminate]. intros [= <-].
  apply find_field_in in E as [Hin _]. apply decode_dec_ok. now apply Hwf.
Qed.
Lemma cds_ok lim gs : fields_wf gs ->
  forall i r d, assoc i (cds lim gs) = Some (r, d) -> dec_ok (fun _ => True) d.
Proof.
  unfold fields_wf. intros Hwf i r d. rewrite assoc_cds. rewrite Forall_forall in Hwf.
  destruct (find_field i gs) as [g|] eqn:E; [|discriminate]. intros [= <- <-].
  apply find_field_in in E as [Hin _]. apply decode_dec_ok. now apply Hwf.
Qed.

(** ** One complete field *)
Definition item_payload (it : item) : bytes :=
  match it with IField f v => spec_encode true v (f_type f) | IRaw _ _ p => p end.

Lemma item_payload_len it : lenN (item_payload it) <= lenN (item_bytes it).
Proof. destruct it; cbn [item_payload item_bytes]; rewrite lenN_app; lia. Qed.

Lemma spec_header_pos i size ie : i <= max_index -> size < two64 ->
  (0 < length (spec_header i size ie))%nat.
Proof.
  intros Hi Hs. pose proof (header_size_spec' i size ie Hi) as H.
  unfold field_header_size in H. pose proof varint_size_range as Hv.
  repeat match type of H with context [if ?c then _ else _] => destruct c end;
    match type of H with context [varint_size_from_value ?x] => pose proof (Hv x) end;
    unfold lenN in *; lia.
Qed.

Lemma item_len_pos gs it : item_ok gs it -> lenN (item_bytes it) < two64 ->
  (0 < length (item_bytes it))%nat.
Proof.
  intros [Hi _] Hl. destruct it; cbn [item_bytes item_index] in *; cbv zeta in *;
    rewrite lenN_app in Hl; rewrite app_length;
    match goal with |- context [spec_header ?a ?b ?c] => pose proof (spec_header_pos a b c Hi ltac:(lia)) end;
    lia.
Qed.

Lemma item_bytes_ok gs it : item_ok gs it -> lenN (item_bytes it) < two64 -> bytes_ok (item_bytes it).
Proof.
  intros [Hi Hit] Hl. destruct it as [f v|i ie p]; cbn [item_bytes item_index] in *; cbv zeta in *;
    rewrite lenN_app in Hl; apply bytes_ok_app; (split; [apply spec_header_ok; [exact Hi|lia]|]).
  - destruct Hit as (Hw & Ht & _). apply spec_encode_ok; auto. lia.
  - tauto.
Qed.

Lemma item_header gs it rest : item_ok gs it -> lenN (item_bytes it) < two64 -> bytes_ok rest ->
  deserialize_field_header (item_bytes it ++ rest) =
    Ok (item_index it, lenN (item_payload it)) (item_payload it ++ rest).
Proof.
  intros [Hi Hit] Hl Hr. destruct it as [f v|i ie p]; cbn [item_index item_payload] in *.
  - destruct Hit as (Hw & Ht & _). now apply (field_header_decodes f v rest).
  - destruct Hit as (_ & Hp & Hie). cbn [item_bytes] in *. rewrite lenN_app in Hl.
    rewrite <- serialize_header_spec by (auto; lia). rewrite <- app_assoc.
    apply header_roundtrip; [exact Hi|lia|now apply bytes_ok_app|].
    intros H1 H2 H3. destruct (Hie H1 H2 H3) as (b & tl & E & Hb). exists b, (tl ++ rest).
    split; [now rewrite E|exact Hb].
Qed.

Definition items_bytes (its : list item) : bytes := flat_map item_bytes its.

Lemma items_ok_bytes gs its : Forall (item_ok gs) its -> lenN (items_bytes its) < two64 ->
  bytes_ok (items_bytes its).
Proof.
  induction its as [|it its IH]; intros H Hl; [constructor|]. inversion H; subst.
  cbn [items_bytes flat_map] in *. fold (items_bytes its) in *. rewrite lenN_app in Hl.
  apply bytes_ok_app. split; [apply (item_bytes_ok gs); auto; lia|apply IH; auto; lia].
Qed.

Definition add_item (gs : list (field_of ty)) (slots : list (N * val)) (it : item) : list (N * val) :=
  match it with
  | IField f v => match find_field (f_index f) gs with
                  | Some g => get_or_insert (f_index f) (migrate v (f_type f) (f_type g)) slots
                  | None => slots
                  end
  | IRaw _ _ _ => slots
  end.

(** What decoding one known field gives. *)
Lemma item_decodes lim gs f v g : fields_wf gs -> item_ok gs (IField f v) ->
  find_field (f_index f) gs = Some g ->
  lenN (item_bytes (IField f v)) < two64 -> 8 * lenN (item_bytes (IField f v)) <= lim ->
  decode lim (f_type g) true (lenN (spec_encode true v (f_type f))) (spec_encode true v (f_type f))
    = Ok (migrate v (f_type f) (f_type g)) [].
Proof.
  intros Hwf [Hi (Hw & Ht & Hc)] Eg Hl Hlim. rewrite Eg in Hc.
  pose proof (item_payload_len (IField f v)) as Hp. cbn [item_payload] in Hp.
  apply reads_all; auto; try lia. unfold fields_wf in Hwf. rewrite Forall_forall in Hwf.
  apply find_field_in in Eg as [Hg _]. now apply Hwf.
Qed.

Lemma struct_loop_items lim gs : fields_wf gs -> forall its fuel slots rest,
  Forall (item_ok gs) its -> bytes_ok rest ->
  lenN (items_bytes its) < two64 -> 8 * lenN (items_bytes its) <= lim ->
  (length (items_bytes its ++ rest) < fuel)%nat ->
  struct_loop fuel (sds lim gs) slots (items_bytes its ++ rest)
    = struct_loop (S (length rest)) (sds lim gs) (fold_left (add_item gs) its slots) rest.
Proof.
  intros Hwf. induction its as [|it its IH]; intros fuel slots rest Hits Hr Hl Hlim Hf.
  - cbn [items_bytes flat_map app fold_left] in *.
    apply struct_loop_fuel; auto; try lia. now apply sds_ok.
  - inversion Hits as [|? ? Hit Hits']; subst. cbn [items_bytes flat_map] in *.
    fold (items_bytes its) in *. rewrite lenN_app in *. rewrite <- app_assoc in *.
    pose proof (item_len_pos gs it Hit ltac:(lia)) as Hpos. rewrite app_length in Hf.
    assert (bytes_ok (items_bytes its ++ rest)) as Hok
      by (apply bytes_ok_app; split; [apply (items_ok_bytes gs); auto; lia|exact Hr]).
    destruct fuel as [|fuel]; [lia|]. cbn [struct_loop fold_left].
    rewrite (item_header gs) by (auto; lia). rewrite takeN_app, dropN_app.
    rewrite assoc_sds.
    destruct it as [f v|i ie p]; cbn [item_index item_payload add_item] in *.
    + destruct (find_field (f_index f) gs) as [g|] eqn:Eg; cbn [omap].
      * rewrite (item_decodes lim gs) by (auto; lia). cbn [bindr app].
        apply IH; auto; lia.
      * unfold skip. rewrite N.leb_refl, dropN_all by lia. cbn [bindr app]. apply IH; auto; lia.
    + destruct Hit as (_ & En & _ & _). rewrite En. cbn [omap].
      unfold skip. rewrite N.leb_refl, dropN_all by lia. cbn [bindr app]. apply IH; auto; lia.
Qed.

Lemma assoc_get_or_insert i j v slots :
  assoc i (get_or_insert j v slots) =
    match assoc i slots with Some w => Some w | None => if j =? i then Some v else None end.
Proof.
  unfold get_or_insert. destruct (assoc j slots) eqn:E.
  - destruct (assoc i slots) eqn:E2; [reflexivity|]. destruct (j =? i) eqn:Eji; [|reflexivity].
    assert (j = i) by lia. subst. congruence.
  - rewrite assoc_app. cbn [assoc]. destruct (assoc i slots); auto.
Qed.

Lemma assoc_fold gs its : forall slots i, Forall (item_ok gs) its ->
  assoc i (fold_left (add_item gs) its slots) =
    match assoc i slots with Some w => Some w | None => first_value gs its i end.
Proof.
  induction its as [|it its IH]; intros slots i Hits; cbn [fold_left first_value].
  - destruct (assoc i slots); reflexivity.
  - inversion Hits as [|? ? Hit Hits']; subst. rewrite IH by exact Hits'.
    destruct it as [f v|j ie p]; cbn [add_item]; [|reflexivity].
    destruct (find_field (f_index f) gs) as [g|] eqn:Eg.
    + rewrite assoc_get_or_insert. destruct (assoc i slots); [reflexivity|].
      destruct (f_index f =? i) eqn:E; [|reflexivity].
      assert (f_index f = i) by lia. subst i. rewrite Eg. reflexivity.
    + destruct (assoc i slots); [reflexivity|].
      destruct (f_index f =? i) eqn:E; [|reflexivity].
      assert (f_index f = i) by lia. subst i. rewrite Eg.
      clear - Eg. induction its as [|[f' v'|] its IH]; cbn [first_value]; auto.
      destruct (f_index f' =? f_index f); [now rewrite Eg|exact IH].
Qed.

(** ** C15: inserting an unknown field *)
Lemma unknown_ignored lim gs its1 u rest : fields_wf gs ->
  Forall (item_ok gs) its1 -> item_ok gs u -> find_field (item_index u) gs = None ->
  bytes_ok rest ->
  lenN (items_bytes its1 ++ item_bytes u) < two64 ->
  8 * lenN (items_bytes its1 ++ item_bytes u) <= lim ->
  deserialize lim (TStruct gs) (items_bytes its1 ++ item_bytes u ++ rest)
    = deserialize lim (TStruct gs) (items_bytes its1 ++ rest).
Proof.
  intros Hwf H1 Hu En Hr Hl Hlim. rewrite lenN_app in *. unfold deserialize. cbn [decode].
  fold (sds lim gs).
  replace (items_bytes its1 ++ item_bytes u ++ rest) with (items_bytes (its1 ++ [u]) ++ rest).
  2:{ unfold items_bytes. rewrite flat_map_app. cbn [flat_map]. now rewrite app_nil_r, app_assoc. }
  rewrite (struct_loop_items lim gs Hwf (its1 ++ [u])); auto; try lia.
  - rewrite (struct_loop_items lim gs Hwf its1); auto; try lia.
    rewrite fold_left_app. cbn [fold_left]. destruct u as [f v|i ie p]; cbn [add_item item_index] in *.
    + now rewrite En.
    + reflexivity.
  - apply Forall_app. split; auto.
  - unfold items_bytes in *. rewrite flat_map_app, lenN_app. cbn [flat_map]. rewrite app_nil_r. lia.
  - unfold items_bytes in *. rewrite flat_map_app, lenN_app. cbn [flat_map]. rewrite app_nil_r. lia.
Qed.

(** ** C16: the result of reading complete fields *)
Definition required_missing (gs : list (field_of ty)) (its : list item) : Prop :=
  exists g, In g gs /\ f_rule g = Required /\ forall it, In it its -> item_index it <> f_index g.

Lemma first_value_none gs its i : find_field i gs <> None -> Forall (item_ok gs) its ->
  first_value gs its i = None <-> (forall it, In it its -> item_index it <> i).
Proof.
  intros Hk. induction its as [|it its IH]; intros Hits; cbn [first_value].
  - split; [intros _ it []|reflexivity].
  - inversion Hits as [|? ? Hit Hits']; subst. specialize (IH Hits').
    destruct it as [f v|j ie p].
    + destruct (f_index f =? i) eqn:E.
      * destruct (find_field i gs) as [g|] eqn:Eg; [|congruence].
        split; [discriminate|]. intros H. exfalso. apply (H (IField f v)); [now left|cbn; lia].
      * rewrite IH. split; intros H it; [intros [<-|Hin]; [cbn; lia|now apply H]|].
        intros Hin. apply H. now right.
    + rewrite IH. split; intros H it; [intros [<-|Hin]; [|now apply H]|intros Hin; apply H; now right].
      destruct Hit as (_ & En & _). cbn [item_index]. intros ->. congruence.
Qed.

Lemma struct_items lim gs its : ty_wf (TStruct gs) -> Forall (item_ok gs) its ->
  lenN (items_bytes its) < two64 -> 8 * lenN (items_bytes its) <= lim ->
  (required_missing gs its /\ deserialize lim (TStruct gs) (items_bytes its) = Err InvalidData) \/
  (~ required_missing gs its /\
   deserialize lim (TStruct gs) (items_bytes its)
     = Ok (VStruct (map (fun g => first_value gs its (f_index g)) gs)) []).
Proof.
  intros [Hnd Hwf] Hits Hl Hlim. apply allP_Forall in Hwf.
  unfold deserialize. cbn [decode]. fold (sds lim gs).
  pose proof (struct_loop_items lim gs Hwf its (S (length (items_bytes its))) [] [] Hits
                (Forall_nil _) Hl Hlim) as E.
  rewrite app_nil_r in E. rewrite E by lia. clear E.
  cbn [length]. set (slots := fold_left (add_item gs) its []).
  replace (struct_loop 1 (sds lim gs) slots []) with (Ok slots []) by reflexivity. cbn [bindr].
  assert (forall i, assoc i slots = first_value gs its i) as Hsl
    by (intros i; unfold slots; rewrite assoc_fold by exact Hits; reflexivity).
  assert (forall g, In g gs -> find_field (f_index g) gs <> None) as Hk
    by (intros g Hg; rewrite (find_field_nodup gs g Hnd Hg); discriminate).
  destruct (missing_required gs slots) eqn:Em; [left|right].
  - split; [|reflexivity]. unfold missing_required in Em. apply existsb_exists in Em as (g & Hg & Em).
    exists g. split; [exact Hg|]. destruct (f_rule g) eqn:Er; try discriminate. split; [reflexivity|].
    rewrite Hsl in Em. apply (first_value_none gs its (f_index g) (Hk g Hg) Hits).
    now destruct (first_value gs its (f_index g)).
  - split.
    + intros (g & Hg & Er & Hno). apply (first_value_none gs its (f_index g) (Hk g Hg) Hits) in Hno.
      assert (missing_required gs slots = true); [|congruence]. unfold missing_required.
      apply existsb_exists. exists g. split; [exact Hg|]. now rewrite Er, Hsl, Hno.
    + f_equal. f_equal. apply map_ext. intros g. apply Hsl.
Qed.

(** ** C17: choices *)
Definition unknown_to (gs : list (field_of ty)) (it : item) : Prop :=
  item_ok gs it /\ find_field (item_index it) gs = None.

Lemma choice_skips lim gs : fields_wf gs -> forall its fuel rest,
  Forall (unknown_to gs) its -> bytes_ok rest -> lenN (items_bytes its) < two64 ->
  (length (items_bytes its ++ rest) < fuel)%nat ->
  choice_loop fuel (cds lim gs) (items_bytes its ++ rest)
    = choice_loop (S (length rest)) (cds lim gs) rest.
Proof.
  intros Hwf. induction its as [|it its IH]; intros fuel rest Hits Hr Hl Hf.
  - cbn [items_bytes flat_map app] in *. apply choice_loop_fuel; auto; try lia. now apply cds_ok.
  - inversion Hits as [|? ? [Hit En] Hits']; subst. cbn [items_bytes flat_map] in *.
    fold (items_bytes its) in *. rewrite lenN_app in *. rewrite <- app_assoc in *.
    pose proof (item_len_pos gs it Hit ltac:(lia)) as Hpos. rewrite app_length in Hf.
    assert (bytes_ok (items_bytes its ++ rest)) as Hok.
    { apply bytes_ok_app; split; [|exact Hr]. apply (items_ok_bytes gs); [|lia].
      eapply Forall_impl; [|exact Hits']. now intros a []. }
    destruct fuel as [|fuel]; [lia|]. cbn [choice_loop].
    rewrite (item_header gs) by (auto; lia). cbn [bindr]. rewrite takeN_app, dropN_app.
    rewrite assoc_cds, En. cbn [omap].
    unfold skip. rewrite N.leb_refl, dropN_all by lia. cbn [bindr app]. apply IH; auto; lia.
Qed.

Lemma choice_unknown_ignored lim gs its rest : ty_wf (TChoice gs) ->
  Forall (unknown_to gs) its -> bytes_ok rest -> lenN (items_bytes its) < two64 ->
  deserialize lim (TChoice gs) (items_bytes its ++ rest) = deserialize lim (TChoice gs) rest.
Proof.
  intros [Hnd Hwf] Hits Hr Hl. apply allP_Forall in Hwf. unfold deserialize. cbn [decode].
  fold (cds lim gs). apply choice_skips; auto; lia.
Qed.

Lemma choice_known lim gs f v g rest : ty_wf (TChoice gs) ->
  item_ok gs (IField f v) -> find_field (f_index f) gs = Some g -> bytes_ok rest ->
  lenN (item_bytes (IField f v)) < two64 -> 8 * lenN (item_bytes (IField f v)) <= lim ->
  deserialize lim (TChoice gs) (item_bytes (IField f v) ++ rest) =
    let p := migrate v (f_type f) (f_type g) in
    match f_rule g with
    | Optional => bindr (deserialize lim (TChoice gs) rest)
                    (fun fb rest2 => Ok (VChoice (f_index f) p (Some fb)) rest2)
    | _ => Ok (VChoice (f_index f) p None) []
    end.
Proof.
  intros [Hnd Hwf] Hit Eg Hr Hl Hlim. apply allP_Forall in Hwf. unfold deserialize. cbn [decode].
  fold (cds lim gs). set (n := length (item_bytes (IField f v) ++ rest)).
  pose proof (item_len_pos gs _ Hit Hl) as Hpos.
  assert (length rest < n)%nat as Hn by (unfold n; rewrite app_length; lia). clearbody n.
  cbn [choice_loop]. rewrite (item_header gs) by auto. cbn [bindr item_index item_payload].
  rewrite takeN_app, dropN_app, assoc_cds, Eg. cbn [omap].
  rewrite (item_decodes lim gs) by auto. cbn [bindr app].
  destruct (f_rule g); try reflexivity.
  rewrite (choice_loop_fuel (cds lim gs) (cds_ok lim gs Hwf) n (S (length rest)) rest Hr Hn) by lia.
  reflexivity.
Qed.
