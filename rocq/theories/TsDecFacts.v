(** TypeScript deserialization of what was serialized. *)
From Verif Require Export TsSpec TsSerFacts EvolutionFacts2.

(** ** UTF-8 *)
Lemma lossy_char c rest : scalar_ok c ->
  utf8_lossy 0 0 128 191 (utf8_char c ++ rest) = c :: utf8_lossy 0 0 128 191 rest.
Proof.
  intros Hc. unfold scalar_ok in Hc. unfold utf8_char.
  destruct (c <? 128) eqn:E1.
  { cbn [app utf8_lossy]. change (0 =? 0) with true. cbv iota. unfold utf8_first. now rewrite E1. }
  assert (forall cp lo hi b r need, need <> 0 -> need <> 1 -> lo <= b <= hi ->
    utf8_lossy need cp lo hi (b :: r) = utf8_lossy (need - 1) (64 * cp + (b - 128)) 128 191 r) as Hmid.
  { intros cp lo hi b r need H0 H1 Hb. cbn [utf8_lossy]. replace (need =? 0) with false by lia.
    unfold inr. replace ((lo <=? b) && (b <=? hi)) with true by lia.
    replace (need =? 1) with false by lia. reflexivity. }
  assert (forall cp lo hi b r, lo <= b <= hi ->
    utf8_lossy 1 cp lo hi (b :: r) = 64 * cp + (b - 128) :: utf8_lossy 0 0 128 191 r) as Hlast.
  { intros cp lo hi b r Hb. cbn [utf8_lossy]. change (1 =? 0) with false. change (1 =? 1) with true.
    cbv iota. unfold inr. replace ((lo <=? b) && (b <=? hi)) with true by lia. reflexivity. }
  destruct (c <? 2048) eqn:E2.
  { cbn [app]. remember (128 + c mod 64 :: rest) as r1. cbn [utf8_lossy].
    change (0 =? 0) with true. cbv iota.
    unfold utf8_first, inr. replace (192 + c / 64 <? 128) with false by lia.
    replace ((194 <=? 192 + c / 64) && (192 + c / 64 <=? 223)) with true by lia.
    subst r1. rewrite Hlast by lia. f_equal. lia. }
  pose proof (N.div_div c 64 64 ltac:(discriminate) ltac:(discriminate)) as Hdd.
  change (64 * 64) with 4096 in Hdd.
  destruct (c <? 65536) eqn:E3.
  { set (q := c / 64) in *. assert (c = 64 * q + c mod 64) by lia.
    assert (c mod 64 < 64) by lia. rewrite <- Hdd. clearbody q.
    set (r := c mod 64) in *. clearbody r. subst c.
    cbn [app]. remember (128 + q mod 64 :: 128 + r :: rest) as r1. cbn [utf8_lossy].
    change (0 =? 0) with true. cbv iota. unfold utf8_first, inr.
    replace (224 + q / 64 <? 128) with false by lia.
    replace ((194 <=? 224 + q / 64) && (224 + q / 64 <=? 223)) with false by lia.
    replace ((224 <=? 224 + q / 64) && (224 + q / 64 <=? 239)) with true by lia.
    subst r1. rewrite Hmid; [| lia | lia |].
    2:{ destruct (224 + q / 64 =? 224) eqn:?, (224 + q / 64 =? 237) eqn:?; lia. }
    change (2 - 1) with 1. rewrite Hlast by lia. f_equal. lia. }
  pose proof (N.div_div c 4096 64 ltac:(discriminate) ltac:(discriminate)) as Hdd2.
  change (4096 * 64) with 262144 in Hdd2.
  rewrite <- Hdd2, <- Hdd. clear Hdd Hdd2.
  set (q := c / 64) in *. assert (c = 64 * q + c mod 64) as Hq by lia.
  assert (c mod 64 < 64) as Hr by lia. clearbody q. set (r := c mod 64) in *. clearbody r. subst c.
  set (q2 := q / 64) in *. assert (q = 64 * q2 + q mod 64) as Hq2 by lia.
  assert (q mod 64 < 64) as Hr2 by lia. clearbody q2. set (r2 := q mod 64) in *. clearbody r2.
  subst q.
  set (q3 := q2 / 64) in *. assert (q2 = 64 * q3 + q2 mod 64) as Hq3 by lia.
  assert (q2 mod 64 < 64) as Hr3 by lia. clearbody q3. set (r3 := q2 mod 64) in *. clearbody r3.
  subst q2.
  cbn [app]. remember (128 + r3 :: 128 + r2 :: 128 + r :: rest) as r1. cbn [utf8_lossy].
  change (0 =? 0) with true. cbv iota. unfold utf8_first, inr.
  replace (240 + q3 <? 128) with false by lia.
  replace ((194 <=? 240 + q3) && (240 + q3 <=? 223)) with false by lia.
  replace ((224 <=? 240 + q3) && (240 + q3 <=? 239)) with false by lia.
  replace ((240 <=? 240 + q3) && (240 + q3 <=? 244)) with true by lia.
  subst r1. rewrite Hmid; [| lia | lia |].
  2:{ destruct (240 + q3 =? 240) eqn:?, (240 + q3 =? 244) eqn:?; lia. }
  change (3 - 1) with 2. rewrite Hmid by lia. change (2 - 1) with 1. rewrite Hlast by lia.
  f_equal. lia.
Qed.
Lemma lossy_encode s : str_ok s -> utf8_lossy 0 0 128 191 (utf8_encode s) = s.
Proof.
  induction s as [|c s IH]; intros H; [reflexivity|]. inversion H; subst.
  unfold utf8_encode. cbn [flat_map]. rewrite lossy_char by assumption. f_equal. now apply IH.
Qed.
Lemma text_decode_encode s : str_ok s -> hd_error s <> Some 65279 -> text_decode (utf8_encode s) = s.
Proof.
  intros Hs Hb. unfold text_decode. rewrite lossy_encode by exact Hs. destruct s as [|c s]; [reflexivity|].
  cbn [strip_bom hd_error] in *. destruct (c =? 65279) eqn:E; [|reflexivity].
  exfalso. apply Hb. f_equal. lia.
Qed.

(** ** Sub-views *)
Lemma new_view_sub v off p r : view_ok v -> off <= vlen v -> vrest v off = p ++ r ->
  exists v', new_view (vbuf v) (voff v + off) (lenN p) = JOk v' /\ view_ok v' /\
             vlen v' = lenN p /\ vrest v' 0 = p.
Proof.
  intros Hv Ho E. pose proof (vrest_len v off Hv) as Hl. rewrite E, lenN_app in Hl.
  pose proof Hv as [Hv1 Hv2].
  exists (mkView (vbuf v) (voff v + off) (lenN p)). unfold new_view.
  replace (voff v + off + lenN p <=? lenN (vbuf v)) with true by lia.
  split; [reflexivity|]. split; [split; cbn; [lia|exact Hv2]|]. split; [reflexivity|].
  unfold vrest in *. cbn [vlen voff vbuf]. rewrite N.sub_0_r, N.add_0_r.
  assert (takeN (lenN p) (takeN (vlen v - off) (dropN (voff v + off) (vbuf v))) = p) as H
    by (rewrite E; apply takeN_app).
  rewrite takeN_takeN in H. replace (N.min (lenN p) (vlen v - off)) with (lenN p) in H by lia.
  exact H.
Qed.
Lemma vrest_app v off a b : view_ok v -> vrest v off = a ++ b -> vrest v (off + lenN a) = b.
Proof. intros Hv E. rewrite vrest_drop, E. apply dropN_app. Qed.
Lemma vrest_le v off a b : view_ok v -> vrest v off = a ++ b -> a <> [] -> off + lenN a <= vlen v.
Proof.
  intros Hv E Ha. pose proof (vrest_len v off Hv) as Hl. rewrite E, lenN_app in Hl.
  destruct a; [congruence|]. rewrite lenN_cons in *. lia.
Qed.

Lemma ts_varint_at v off n r : view_ok v -> n < two64 -> vrest v off = spec_varint n ++ r ->
  ts_deserialize_varint v off = JOk (off + lenN (spec_varint n), n) /\
  vrest v (off + lenN (spec_varint n)) = r /\ off + lenN (spec_varint n) <= vlen v.
Proof.
  intros Hv Hn E.
  assert (bytes_ok r) as Hr.
  { pose proof (vrest_ok v off Hv) as H. rewrite E in H. now apply bytes_ok_app in H. }
  assert (0 < lenN (spec_varint n)) as Hpos.
  { rewrite spec_varint_length by exact Hn. pose proof (varint_size_range n). lia. }
  pose proof (vrest_le v off _ _ Hv E) as Hle.
  assert (spec_varint n <> []) as Hne by (intros Hx; rewrite Hx in Hpos; unfold lenN in Hpos; cbn in Hpos; lia).
  specialize (Hle Hne).
  split; [|split; [now apply vrest_app|exact Hle]].
  rewrite ts_deserialize_varint_eq, E by exact Hv.
  destruct (varint_roundtrip_spec n r Hn Hr) as [-> _]. cbn [as_js]. do 2 f_equal.
  pose proof (vrest_len v off Hv) as Hl. rewrite E, lenN_app in Hl. lia.
Qed.

Lemma header_nonempty i size ie : spec_header i size ie <> [].
Proof.
  unfold spec_header, spec_varint.
  assert (forall k e, (0 < k)%nat -> le_bytes k e <> []) as H by (intros [|k] e Hk; [lia|discriminate]).
  repeat match goal with |- context [if ?c then _ else _] => destruct c end;
    try (apply H; lia); try discriminate; intros E; apply app_eq_nil in E as [E _]; revert E;
    try (apply H; lia); discriminate.
Qed.

Lemma ts_field_at w off f v r : view_ok w ->
  wt DOut v (f_type f) -> ty_wf (f_type f) -> f_index f <= max_index ->
  lenN (field_bytes f v) < two64 -> vrest w off = field_bytes f v ++ r ->
  exists off1 w', ts_deserialize_header w off
      = JOk (off1, f_index f, lenN (spec_encode true v (f_type f))) /\
    off1 + lenN (spec_encode true v (f_type f)) = off + lenN (field_bytes f v) /\
    off + lenN (field_bytes f v) <= vlen w /\
    new_view (vbuf w) (voff w + off1) (lenN (spec_encode true v (f_type f))) = JOk w' /\
    view_ok w' /\ vlen w' = lenN (spec_encode true v (f_type f)) /\
    vrest w' 0 = spec_encode true v (f_type f) /\
    vrest w (off + lenN (field_bytes f v)) = r.
Proof.
  intros Hv Hw Hwf Hi Hl E.
  assert (bytes_ok r) as Hr.
  { pose proof (vrest_ok w off Hv) as H. rewrite E in H. now apply bytes_ok_app in H. }
  pose proof (field_header_decodes f v r Hw Hwf Hi Hl Hr) as Hd. rewrite <- E in Hd.
  destruct (ts_header_step w off _ _ _ Hv Hd) as (Hoff & Er & Eh).
  assert (field_bytes f v <> []) as Hne.
  { unfold field_bytes. intros H. apply app_eq_nil in H as [H _]. now apply header_nonempty in H. }
  pose proof (vrest_le w off _ _ Hv E Hne) as Hle.
  pose proof (vrest_len w off Hv) as Hlen. rewrite E in Hlen.
  set (off1 := vlen w - lenN (spec_encode true v (f_type f) ++ r)) in *.
  assert (off1 <= vlen w) as Ho1 by lia.
  destruct (new_view_sub w off1 _ _ Hv Ho1 Er) as (w' & Hn & Hok & Hvl & Hvr).
  exists off1, w'. repeat split; auto; try apply Hok.
  - subst off1. rewrite !lenN_app in *. unfold field_bytes in *. rewrite !lenN_app in *. lia.
  - now apply vrest_app.
Qed.

Lemma ts_end w off : view_ok w -> vrest w off = [] ->
  ts_deserialize_header w off = JRange /\ ts_deserialize_varint w off = JRange /\
  get_u8 w off = JRange.
Proof.
  intros Hv E. rewrite ts_deserialize_header_eq, ts_deserialize_varint_eq, get_u8_rest, E by exact Hv.
  repeat split; reflexivity.
Qed.

(** ** The loops *)
Definition treads (v : val) : Prop := forall a b isf w,
  wt DOut v a -> ty_wf a -> ty_wf b -> compat a b -> ts_faithful v ->
  lenN (spec_encode isf v a) < two64 -> view_ok w -> vrest w 0 = spec_encode isf v a ->
  ts_decode b isf (vlen w) w 0 = JOk (vlen w, js_val (migrate v a b)).

Lemma treads_at v a b isf w sz : treads v ->
  wt DOut v a -> ty_wf a -> ty_wf b -> compat a b -> ts_faithful v ->
  lenN (spec_encode isf v a) < two64 -> view_ok w -> vlen w = sz -> vrest w 0 = spec_encode isf v a ->
  ts_decode b isf sz w 0 = JOk (sz, js_val (migrate v a b)).
Proof. intros H Hw Ha Hb Hc Ht Hl Hv <- E. now apply H. Qed.

Lemma view_len w bs : view_ok w -> vrest w 0 = bs -> vlen w = lenN bs.
Proof. intros Hv <-. rewrite vrest_len by exact Hv. lia. Qed.

Lemma tassoc_assoc {A} i (l : list (N * A)) : tassoc i l = assoc i l.
Proof. induction l as [|[j a] l IH]; [reflexivity|]. cbn. now rewrite IH. Qed.

Definition js_slots (l : list (N * val)) : list (N * val) := map (fun iv => (fst iv, js_val (snd iv))) l.

Lemma ts_struct_loop_reads gs : forall fs ovs fuel slots w off,
  Forall (optP treads) ovs ->
  all2P (fun ov f => match ov with Some v => wt DOut v (f_type f)
                                 | None => always_present DOut (f_rule f) = false end) ovs fs ->
  allP (fun ov => match ov with Some v => ts_faithful v | None => True end) ovs ->
  Forall (fun f => f_index f <= max_index /\ ty_wf (f_type f)) fs ->
  Forall (fun f => f_index f <= max_index /\ ty_wf (f_type f)) gs ->
  Forall (fun f => match find_field (f_index f) gs with
                   | Some g => compat (f_type f) (f_type g) | None => True end) fs ->
  let bs := concat (map2 opt_field_bytes ovs fs) in
  lenN bs < two64 -> (length bs < fuel)%nat -> view_ok w -> vrest w off = bs ->
  ts_struct_loop fuel (map (fun f => (f_index f, ts_decode (f_type f) true)) gs) slots w off
    = JOk (rev (js_slots (known_slots ovs fs gs)) ++ slots).
Proof.
  induction fs as [|f fs IH]; intros ovs fuel slots w off Hr Hw Hts Hwf Hwg Hc bs Hl Hfu Hv E; subst bs.
  - destruct ovs; [|contradiction]. destruct fuel; [cbn in Hfu; lia|]. cbn [ts_struct_loop].
    cbn [map2 concat] in E. destruct (ts_end w off Hv E) as (-> & _). reflexivity.
  - destruct ovs as [|ov ovs]; [contradiction|].
    inversion Hr as [|? ? Hr1 Hr2]; inversion Hwf as [|? ? [Hi Hwf1] Hwf2];
      inversion Hc as [|? ? Hc1 Hc2]; subst.
    destruct Hw as [Hw1 Hw2], Hts as [Ht1 Ht2]. cbn [map2 concat] in *.
    rewrite lenN_app, app_length in *.
    destruct ov as [v|]; cbn [opt_field_bytes] in *.
    + pose proof (field_bytes_length f v Hwf1 Hi ltac:(lia)) as Hpos.
      destruct fuel as [|fuel]; [lia|]. cbn [ts_struct_loop].
      assert (lenN (spec_encode true v (f_type f)) <= lenN (field_bytes f v)) as Hle
        by (unfold field_bytes; rewrite lenN_app; lia).
      destruct (ts_field_at w off f v _ Hv Hw1 Hwf1 Hi ltac:(lia) E)
        as (off1 & w' & Eh & Eo & _ & En & Hvo & Hvl & Hvr & Erest).
      rewrite Eh, tassoc_assoc, assoc_map_fields. unfold known_slots. cbn [map2 concat].
      destruct (find_field (f_index f) gs) as [g|] eqn:Eg; cbn [omap].
      * rewrite En. cbn [jbind].
        pose proof (find_field_in _ _ _ Eg) as [Hg Eig]. pose proof Hwg as Hwg'.
        rewrite Forall_forall in Hwg'.
        rewrite (treads_at v (f_type f) (f_type g) true w' _ Hr1 Hw1 Hwf1 (proj2 (Hwg' g Hg)) Hc1 Ht1
                   ltac:(lia) Hvo Hvl Hvr).
        cbn [jbind fst snd]. rewrite (N.add_comm _ off1), Eo.
        rewrite (IH ovs); auto; try lia. f_equal. cbn [app js_slots map rev fst snd].
        now rewrite <- app_assoc.
      * rewrite Eo. rewrite (IH ovs); auto; try lia.
    + cbn [app length] in *. rewrite lenN_nil in *. rewrite (IH ovs); auto; try lia.
Qed.

Lemma known_nodup fs ovs gs : NoDup (indices fs) ->
  NoDup (map fst (known_slots ovs fs gs)) /\ incl (map fst (known_slots ovs fs gs)) (indices fs).
Proof.
  revert ovs. induction fs as [|f fs IH]; intros [|ov ovs] Hn; try (split; [constructor|intros x []]).
  inversion Hn as [|? ? Hni Hnd]; subst. unfold known_slots. cbn [map2 concat].
  destruct (IH ovs Hnd) as [I1 I2]. fold (known_slots ovs fs gs).
  destruct ov as [v|]; [destruct (find_field (f_index f) gs)|]; cbn [app map fst];
    (split; [|]); try exact I1; try (intros x Hx; right; now apply I2).
  - constructor; [|exact I1]. intros Hin. now apply Hni, I2.
  - intros x [<-|Hx]; [now left|right; now apply I2].
Qed.
Lemma assoc_in {A} i (l : list (N * A)) a : NoDup (map fst l) -> (assoc i l = Some a <-> In (i, a) l).
Proof.
  induction l as [|[j b] l IH]; intros Hn; [split; [discriminate|intros []]|].
  inversion Hn as [|? ? Hni Hnd]; subst. cbn [assoc]. destruct (j =? i) eqn:E.
  - replace j with i by lia. split; [intros H; left; congruence|].
    intros [H|H]; [congruence|]. exfalso. apply Hni. replace j with i by lia.
    apply in_map_iff. now exists (i, a).
  - rewrite IH by exact Hnd. split; [now right|]. intros [H|H]; [|exact H]. injection H as ? ?. lia.
Qed.
Lemma assoc_rev {A} i (l : list (N * A)) : NoDup (map fst l) -> assoc i (rev l) = assoc i l.
Proof.
  intros Hn. assert (NoDup (map fst (rev l))) as Hn' by (rewrite map_rev; now apply NoDup_rev).
  destruct (assoc i l) as [a|] eqn:E.
  - apply assoc_in; [exact Hn'|]. apply -> in_rev. now apply assoc_in.
  - destruct (assoc i (rev l)) as [a|] eqn:E2; [|reflexivity].
    apply assoc_in in E2; [|exact Hn']. apply in_rev in E2. apply assoc_in in E2; [congruence|exact Hn].
Qed.
Lemma assoc_js i l : assoc i (js_slots l) = omap js_val (assoc i l).
Proof. induction l as [|[j a] l IH]; [reflexivity|]. cbn. destruct (j =? i); auto. Qed.

Lemma ts_slots ovs fs gs i : NoDup (indices fs) ->
  tassoc i (rev (js_slots (known_slots ovs fs gs)) ++ []) = omap js_val (assoc i (known_slots ovs fs gs)).
Proof.
  intros Hn. rewrite app_nil_r, tassoc_assoc, assoc_rev, assoc_js; [reflexivity|].
  unfold js_slots. rewrite map_map. cbn [fst]. now apply known_nodup.
Qed.

Lemma ts_struct_reads ovs fs gs :
  Forall (optP treads) ovs ->
  wt DOut (VStruct ovs) (TStruct fs) -> ty_wf (TStruct fs) -> ty_wf (TStruct gs) ->
  compat (TStruct fs) (TStruct gs) -> ts_faithful (VStruct ovs) -> forall isf w,
  lenN (spec_encode isf (VStruct ovs) (TStruct fs)) < two64 -> view_ok w ->
  vrest w 0 = spec_encode isf (VStruct ovs) (TStruct fs) ->
  ts_decode (TStruct gs) isf (vlen w) w 0
    = JOk (vlen w, js_val (migrate (VStruct ovs) (TStruct fs) (TStruct gs))).
Proof.
  intros Hr Hw Ha Hb Hc Hts isf w Hl Hv E.
  cbn [wt ty_wf compat ts_faithful] in *. destruct Ha as [Hnf Hwf], Hb as [Hng Hwg], Hc as [Hc1 Hc2].
  rewrite allP_Forall in Hwf, Hwg, Hc1, Hc2. cbn [ts_decode]. cbv zeta.
  change (spec_encode isf (VStruct ovs) (TStruct fs)) with (concat (map2 opt_field_bytes ovs fs)) in *.
  rewrite (ts_struct_loop_reads gs fs ovs _ [] w 0); auto.
  2:{ pose proof (view_len w _ Hv E) as H. destruct Hv as [Hv _]. unfold lenN in *. lia. }
  cbn [jbind].
  assert (ts_missing gs (rev (js_slots (known_slots ovs fs gs)) ++ []) = false) as ->.
  { unfold ts_missing. apply not_true_is_false. intros He.
    apply existsb_exists in He as (g & Hg & He). rewrite ts_slots in He by exact Hnf.
    rewrite Forall_forall in Hc2. specialize (Hc2 g Hg).
    destruct (f_rule g) eqn:Er; try discriminate He. specialize (Hc2 eq_refl).
    destruct (find_field (f_index g) fs) as [f|] eqn:Ef; [|contradiction].
    apply find_field_in in Ef as [Hf Ei].
    destruct (all2P_in _ _ _ f Hw Hf) as (ov & Hin & Hov).
    destruct ov as [v|]; [|congruence].
    rewrite <- Ei, (assoc_known_some ovs fs gs f v g) in He; auto; [discriminate|].
    rewrite Ei. now apply find_field_nodup. }
  do 2 f_equal. cbn [migrate js_val]. f_equal. rewrite map_map. apply map_ext. intros g.
  rewrite ts_slots by exact Hnf. rewrite slot_of_known by exact Hnf.
  now destruct (assoc (f_index g) (known_slots ovs fs gs)).
Qed.

(** ** Integers *)
Lemma ts_u64_field isf n w : n < two64 -> view_ok w -> vrest w 0 = spec_u64 isf n ->
  ts_dec_u64 isf (vlen w) w 0 = JOk (vlen w, n).
Proof.
  intros Hn Hv E. pose proof (view_len w _ Hv E) as Hl. unfold ts_dec_u64, spec_u64 in *.
  assert (vrest w 0 = spec_varint n -> ts_deserialize_varint w 0 = JOk (vlen w, n)) as Hvar.
  { intros E2. destruct (ts_varint_at w 0 n [] Hv Hn) as (-> & _); [now rewrite app_nil_r|].
    rewrite (view_len w _ Hv E2). do 2 f_equal. }
  destruct isf; [|auto].
  destruct (n =? 0) eqn:E0.
  { rewrite lenN_nil in Hl. rewrite Hl. change (0 =? 0) with true. cbv iota. do 2 f_equal. lia. }
  destruct (n <? 567382630219904) eqn:E1.
  - rewrite (Hvar E). rewrite spec_varint_length in Hl by exact Hn.
    assert (1 <= varint_size_from_value n <= 7) as Hs.
    { unfold varint_size_from_value.
      repeat match goal with |- context [if ?c then _ else _] => destruct c eqn:? end; lia. }
    replace (vlen w =? 0) with false by lia. replace (vlen w =? 8) with false by lia. reflexivity.
  - rewrite lenN_le_bytes in Hl. rewrite Hl. change (N.of_nat 8 =? 0) with false.
    change (N.of_nat 8 =? 8) with true. cbv iota. unfold get_u64, jmap.
    rewrite vget_rest by (auto; lia). rewrite E, lenN_le_bytes. change (8 <=? N.of_nat 8) with true.
    cbv iota. rewrite takeN_all by (rewrite lenN_le_bytes; lia). cbn [jbind].
    rewrite le_val_bytes by exact Hn. reflexivity.
Qed.
Lemma ts_f64_at w off n r : n < two64 -> view_ok w -> vrest w off = le_bytes 8 n ++ r ->
  get_u64 w off = JOk n.
Proof.
  intros Hn Hv E. unfold get_u64, jmap. rewrite vget_rest by (auto; lia).
  rewrite E, lenN_app, lenN_le_bytes. replace (8 <=? N.of_nat 8 + lenN r) with true by lia.
  rewrite takeN_app_eq by (now rewrite lenN_le_bytes). cbn [jbind]. now rewrite le_val_bytes.
Qed.

Lemma ts_elem_reads v e w off r :
  wt DOut v e -> is_unit e = false -> sized_element e = false -> view_ok w ->
  vrest w off = spec_encode false v e ++ r ->
  ts_decode e false 0 w off = JOk (off + lenN (spec_encode false v e), js_val v) /\
  0 < lenN (spec_encode false v e).
Proof.
  intros Hw Hu Hs Hv E.
  assert (forall n, n < two64 -> 0 < lenN (spec_u64 false n)) as Hpos.
  { intros n Hn. pose proof (spec_varint_length n Hn). pose proof (varint_size_range n).
    unfold spec_u64. lia. }
  assert (forall n, n < two64 -> vrest w off = spec_u64 false n ++ r ->
            ts_dec_u64 false 0 w off = JOk (off + lenN (spec_u64 false n), n)) as Hu64.
  { intros n Hn E2. now destruct (ts_varint_at w off n r Hv Hn E2) as (H & _). }
  destruct e; try discriminate; destruct v; try contradiction;
    cbn [ts_decode spec_encode wt js_val] in *; unfold jsnd.
  - cbn [andb] in *. unfold ts_dec_f64. cbn [andb]. rewrite (ts_f64_at w off bits r Hw Hv E).
    rewrite lenN_le_bytes. split; [reflexivity|lia].
  - rewrite (Hu64 n Hw E). auto.
  - rewrite <- zigzag_encode_spec in * by exact Hw. pose proof (zigzag_encode_lt z Hw) as Hz.
    rewrite (Hu64 _ Hz E). cbn [jbind fst snd]. rewrite ts_zigzag_decode_eq by exact Hz.
    rewrite zigzag_dec_enc by exact Hw. auto.
  - rewrite (Hu64 (if b then 1 else 0) ltac:(destruct b; reflexivity) E). cbn [jbind fst snd].
    split; [now destruct b|]. apply Hpos. destruct b; reflexivity.
Qed.

Lemma ts_small_end e w off : is_unit e = false -> sized_element e = false -> view_ok w ->
  vrest w off = [] -> ts_decode e false 0 w off = JRange.
Proof.
  intros Hu Hs Hv E. destruct (ts_end w off Hv E) as (_ & H & _).
  destruct e; try discriminate; cbn [ts_decode]; unfold jsnd, ts_dec_u64; rewrite ?H; try reflexivity.
  unfold ts_dec_f64. cbn [andb]. unfold get_u64, jmap. rewrite vget_rest by (auto; lia). rewrite E.
  reflexivity.
Qed.

Lemma ts_small_loop_reads e : forall vs fuel w off,
  Forall (fun v => wt DOut v e) vs -> is_unit e = false -> sized_element e = false ->
  let bs := flat_map (fun v => spec_encode false v e) vs in
  (length bs < fuel)%nat -> view_ok w -> vrest w off = bs -> off <= vlen w ->
  ts_small_loop fuel (fun off => ts_decode e false 0 w off) off = JOk (vlen w, map js_val vs).
Proof.
  induction vs as [|v vs IH]; intros fuel w off Hw Hu Hs bs Hf Hv E Ho; subst bs.
  - destruct fuel; [cbn in Hf; lia|]. cbn [ts_small_loop flat_map] in *.
    rewrite ts_small_end by auto. do 2 f_equal. pose proof (vrest_len w off Hv) as H. rewrite E in H.
    unfold lenN in H. cbn in H. lia.
  - inversion Hw as [|? ? Hw1 Hw2]; subst. cbn [flat_map] in *. rewrite app_length in Hf.
    destruct (ts_elem_reads v e w off _ Hw1 Hu Hs Hv E) as [He Hp].
    destruct fuel as [|fuel]; [lia|]. cbn [ts_small_loop]. rewrite He.
    rewrite (IH fuel w); auto.
    + unfold lenN in Hp. lia.
    + now apply vrest_app.
    + pose proof (vrest_len w off Hv) as H. rewrite E, lenN_app in H. lia.
Qed.

Lemma ts_sized_loop_reads a b : forall vs fuel w off,
  Forall treads vs -> Forall (fun v => wt DOut v a) vs -> ty_wf a -> ty_wf b -> compat a b ->
  Forall ts_faithful vs ->
  let bs := flat_map (sized_bytes a) vs in
  lenN bs < two64 -> (length bs < fuel)%nat -> view_ok w -> vrest w off = bs -> off <= vlen w ->
  ts_sized_loop fuel (ts_decode b false) w off
    = JOk (vlen w, map (fun v => js_val (migrate v a b)) vs).
Proof.
  induction vs as [|v vs IH]; intros fuel w off Hr Hw Ha Hb Hc Hts bs Hl Hf Hv E Ho; subst bs.
  - destruct fuel; [cbn in Hf; lia|]. cbn [ts_sized_loop flat_map map] in *.
    destruct (ts_end w off Hv E) as (_ & -> & _). do 2 f_equal.
    pose proof (vrest_len w off Hv) as H. rewrite E in H. unfold lenN in H. cbn in H. lia.
  - inversion Hw as [|? ? Hw1 Hw2]; inversion Hr as [|? ? Hr1 Hr2]; inversion Hts as [|? ? Ht1 Ht2];
      subst. cbn [flat_map map] in *. rewrite lenN_app, app_length in *.
    unfold sized_bytes at 1 in Hl. unfold sized_bytes at 1 in Hf. unfold sized_bytes at 1 in E.
    rewrite lenN_app, app_length in *. rewrite <- app_assoc in E.
    assert (lenN (spec_encode false v a) < two64) as Hlv by lia.
    pose proof (spec_varint_length _ Hlv) as Hsl.
    pose proof (varint_size_range (lenN (spec_encode false v a))) as Hsr.
    destruct fuel as [|fuel]; [lia|]. cbn [ts_sized_loop].
    destruct (ts_varint_at w off _ _ Hv Hlv E) as (-> & E1 & Ho1).
    destruct (new_view_sub w _ _ _ Hv Ho1 E1) as (w' & -> & Hvo & Hvl & Hvr). cbn [jbind].
    rewrite (treads_at v a b false w' _ Hr1 Hw1 Ha Hb Hc Ht1 Hlv Hvo Hvl Hvr). cbn [jbind fst snd].
    rewrite (N.add_comm (lenN (spec_encode false v a))).
    rewrite (IH fuel w); auto.
    + lia.
    + unfold lenN in *. lia.
    + now apply vrest_app.
    + pose proof (vrest_len w (off + lenN (spec_varint (lenN (spec_encode false v a)))) Hv) as H.
      rewrite E1, lenN_app in H. lia.
Qed.

Lemma ts_array_reads vs a b :
  Forall treads vs -> Forall (fun v => wt DOut v a) vs -> is_unit a = false ->
  ty_wf a -> ty_wf b -> compat a b -> Forall ts_faithful vs -> forall isf w,
  lenN (spec_encode isf (VArr vs) (TArray a)) < two64 -> view_ok w ->
  vrest w 0 = spec_encode isf (VArr vs) (TArray a) ->
  ts_decode (TArray b) isf (vlen w) w 0
    = JOk (vlen w, VArr (map js_val (map (fun v => migrate v a b) vs))).
Proof.
  intros Hr Hw Hu Ha Hb Hc Hts isf w Hl Hv E.
  destruct (compat_unit a b Hc) as [Hub Hsb].
  pose proof (view_len w _ Hv E) as Hvl. pose proof (proj1 Hv) as Hvb.
  destruct (sized_element a) eqn:Hs.
  - assert (spec_encode isf (VArr vs) (TArray a) = flat_map (sized_bytes a) vs) as E2.
    { cbn [spec_encode]. destruct a; try discriminate; reflexivity. }
    rewrite E2 in *. rewrite Hub in Hu.
    assert (ts_decode (TArray b) isf (vlen w) w 0
      = jsnd VArr (ts_sized_loop (S (length (vbuf w))) (ts_decode b false) w 0)) as ->.
    { destruct b; try discriminate; reflexivity. }
    rewrite (ts_sized_loop_reads a b vs); auto.
    + now rewrite map_map.
    + unfold lenN in *. lia.
    + lia.
  - rewrite <- (compat_small a b Hc Hs) in *.
    assert (spec_encode isf (VArr vs) (TArray a) = flat_map (fun v => spec_encode false v a) vs) as E2.
    { cbn [spec_encode]. destruct a; try discriminate; reflexivity. }
    rewrite E2 in *.
    assert (map (fun v => migrate v a a) vs = vs) as ->.
    { clear - Hw Hs. induction Hw; cbn; [reflexivity|]. f_equal; auto. now apply migrate_small. }
    assert (ts_decode (TArray a) isf (vlen w) w 0
      = jsnd VArr (ts_small_loop (S (length (vbuf w))) (fun off => ts_decode a false 0 w off) 0)) as ->.
    { destruct a; try discriminate; reflexivity. }
    rewrite (ts_small_loop_reads a vs); auto.
    + unfold lenN in *. lia.
    + lia.
Qed.

(** Fuel: every iteration reads a header. *)
Lemma new_view_ok v off len v' : view_ok v -> new_view (vbuf v) off len = JOk v' ->
  view_ok v' /\ vbuf v' = vbuf v /\ voff v' = off /\ vlen v' = len.
Proof.
  intros [_ Hv] H. unfold new_view in H. destruct (off + len <=? lenN (vbuf v)) eqn:E; [|discriminate].
  injection H as <-. split; [split; cbn; [lia|exact Hv]|]. auto.
Qed.
Lemma ts_header_progress w off o i sz : view_ok w -> ts_deserialize_header w off = JOk (o, i, sz) ->
  off < o <= vlen w.
Proof.
  intros Hv H.
  destruct (deserialize_field_header (vrest w off)) as [[i' sz'] rest|e| | |] eqn:E.
  - destruct (ts_header_step w _ _ _ _ Hv E) as (Ho & _ & E2). rewrite H in E2. injection E2 as -> -> ->.
    exact Ho.
  - rewrite ts_deserialize_header_eq, E in H by exact Hv. discriminate H.
  - rewrite ts_deserialize_header_eq, E in H by exact Hv. discriminate H.
  - rewrite ts_deserialize_header_eq, E in H by exact Hv. discriminate H.
  - rewrite ts_deserialize_header_eq, E in H by exact Hv. discriminate H.
Qed.
Lemma ts_choice_fuel ds : forall n m w off, view_ok w ->
  vlen w - off < N.of_nat n -> vlen w - off < N.of_nat m ->
  ts_choice_loop n ds w off = ts_choice_loop m ds w off.
Proof.
  induction n as [|n IH]; intros [|m] w off Hv Hn Hm; try lia. cbn [ts_choice_loop].
  destruct (ts_deserialize_header w off) as [[[o1 i] sz]| | |] eqn:Eh; cbn [jbind]; try reflexivity.
  pose proof (ts_header_progress _ _ _ _ _ Hv Eh) as Ho.
  destruct (tassoc i ds) as [[ru d]|].
  - destruct (new_view (vbuf w) (voff w + o1) sz) as [w'| | |]; cbn [jbind]; try reflexivity.
    destruct (d sz w' 0) as [[o2 x]| | |]; cbn [jbind]; try reflexivity.
    destruct ru; try reflexivity. cbv zeta. destruct (vlen w <? fst (o2, x) + o1); [reflexivity|].
    destruct (new_view _ _ _) as [w2| | |] eqn:E2; cbn [jbind]; try reflexivity.
    apply (new_view_ok w) in E2; [|exact Hv]. destruct E2 as (Hv2 & _ & _ & Hl2). cbn [fst] in Hl2.
    rewrite (IH m w2 0); [reflexivity|exact Hv2|lia|lia].
  - apply IH; [exact Hv|lia|lia].
Qed.

(** The loop at [off + k] is the loop at [off] on the view of the rest from [k]. *)
Definition sub_from (w : view) (k : N) : view := mkView (vbuf w) (voff w + k) (vlen w - k).
Lemma sub_from_ok w k : view_ok w -> k <= vlen w -> view_ok (sub_from w k).
Proof. intros [H1 H2] Hk. split; cbn; [lia|exact H2]. Qed.
Lemma sub_from_rest w k off : vrest (sub_from w k) off = vrest w (off + k).
Proof. unfold vrest, sub_from. cbn. f_equal; [lia|]. f_equal. lia. Qed.
Lemma sub_from_header w k off : view_ok w -> k <= vlen w ->
  ts_deserialize_header w (off + k) =
    match ts_deserialize_header (sub_from w k) off with
    | JOk (o, i, sz) => JOk (o + k, i, sz)
    | JRange => JRange | JError => JError | JFuel => JFuel
    end.
Proof.
  intros Hv Hk. pose proof (sub_from_ok w k Hv Hk) as Hv2.
  destruct (deserialize_field_header (vrest w (off + k))) as [[i sz] rest|e| | |] eqn:E.
  - destruct (ts_header_step w _ _ _ _ Hv E) as (Ho & _ & ->).
    rewrite <- sub_from_rest in E. destruct (ts_header_step _ _ _ _ _ Hv2 E) as (Ho2 & _ & ->).
    cbn [sub_from vlen] in *. do 3 f_equal. lia.
  - rewrite !ts_deserialize_header_eq, sub_from_rest, E by assumption. reflexivity.
  - rewrite !ts_deserialize_header_eq, sub_from_rest, E by assumption. reflexivity.
  - rewrite !ts_deserialize_header_eq, sub_from_rest, E by assumption. reflexivity.
  - rewrite !ts_deserialize_header_eq, sub_from_rest, E by assumption. reflexivity.
Qed.
Lemma sub_from_choice ds : forall n w k off, view_ok w -> k <= vlen w ->
  ts_choice_loop n ds w (off + k) = ts_choice_loop n ds (sub_from w k) off.
Proof.
  induction n as [|n IH]; intros w k off Hv Hk; [reflexivity|]. cbn [ts_choice_loop].
  rewrite sub_from_header by assumption.
  destruct (ts_deserialize_header (sub_from w k) off) as [[[o i] sz]| | |]; cbn [jbind]; try reflexivity.
  destruct (tassoc i ds) as [[ru d]|].
  - cbn [sub_from vbuf voff vlen]. replace (voff w + (o + k)) with (voff w + k + o) by lia.
    destruct (new_view (vbuf w) (voff w + k + o) sz) as [w'| | |]; cbn [jbind]; try reflexivity.
    destruct (d sz w' 0) as [[o2 x]| | |]; cbn [jbind]; try reflexivity.
    destruct ru; try reflexivity. cbv zeta. cbn [fst snd].
    replace (vlen w - k <? o2 + o) with (vlen w <? o2 + (o + k)) by lia.
    destruct (vlen w <? o2 + (o + k)); [reflexivity|].
    replace (voff w + (o2 + (o + k))) with (voff w + k + (o2 + o)) by lia.
    replace (vlen w - (o2 + (o + k))) with (vlen w - k - (o2 + o)) by lia. reflexivity.
  - replace (o + k + sz) with (o + sz + k) by lia. now apply IH.
Qed.

Lemma treads_all : forall v, treads v.
Proof.
  induction v as [|x|n|z|x|bs|s|n|vs IH|ovs IH|i p fb IHp IHfb] using val_ind';
    intros a b isf w Hw Ha Hb Hc Hts Hl Hv E.
  - destruct a; try contradiction. destruct b; try contradiction. cbn [ts_decode migrate js_val].
    rewrite (view_len w _ Hv E). reflexivity.
  - destruct a; try contradiction. destruct b; try contradiction.
    cbn [wt spec_encode ts_decode migrate js_val] in *. unfold ts_dec_f64, jsnd.
    pose proof (view_len w _ Hv E) as Hvl.
    destruct isf; cbn [andb] in *; [destruct (x =? 0) eqn:Ex|].
    + rewrite Hvl, lenN_nil. change (0 =? 0) with true. cbn [jbind fst snd]. do 3 f_equal.
      replace x with 0 by lia. reflexivity.
    + rewrite Hvl, lenN_le_bytes. change (N.of_nat 8 =? 0) with false. cbv iota.
      rewrite (ts_f64_at w 0 x [] Hw Hv) by (now rewrite app_nil_r). reflexivity.
    + rewrite (ts_f64_at w 0 x [] Hw Hv) by (now rewrite app_nil_r).
      rewrite Hvl, lenN_le_bytes. reflexivity.
  - destruct a; try contradiction. destruct b; try contradiction.
    cbn [wt spec_encode ts_decode migrate js_val] in *. unfold jsnd. now rewrite (ts_u64_field isf n).
  - destruct a; try contradiction. destruct b; try contradiction.
    cbn [wt spec_encode ts_decode migrate js_val] in *. rewrite <- zigzag_encode_spec in * by exact Hw.
    pose proof (zigzag_encode_lt z Hw) as Hz. unfold jsnd.
    rewrite (ts_u64_field isf (zigzag_encode z)) by assumption. cbn [jbind fst snd].
    now rewrite ts_zigzag_decode_eq, zigzag_dec_enc.
  - destruct a; try contradiction. destruct b; try contradiction.
    cbn [wt spec_encode ts_decode migrate js_val] in *. unfold jsnd.
    rewrite (ts_u64_field isf (if x then 1 else 0)) by (auto; destruct x; reflexivity).
    now destruct x.
  - destruct a; try contradiction. destruct b; try contradiction.
    cbn [wt spec_encode ts_decode migrate js_val] in *. unfold vrest in E. now rewrite E.
  - destruct a; try contradiction. destruct b; try contradiction.
    cbn [wt spec_encode ts_decode migrate js_val ts_faithful] in *.
    replace (vlen w <? 0) with false by lia. unfold vrest in E. rewrite E.
    now rewrite text_decode_encode.
  - destruct a as [| | | | | | |a| |]; try contradiction. destruct a; try contradiction.
    destruct b as [| | | | | | |b| |]; try contradiction. destruct b; try contradiction.
    cbn [wt spec_encode ts_decode migrate js_val ts_faithful] in *.
    rewrite (ts_u64_field isf n) by assumption. cbn [jbind fst snd].
    now replace (n <? 4294967296) with true by lia.
  - destruct a as [| | | | | | |a| |]; try contradiction.
    destruct b as [| | | | | | |b| |]; try contradiction.
    cbn [wt ty_wf compat ts_faithful] in *. destruct Hw as [Hu Hw]. apply allP_Forall in Hw, Hts.
    cbn [migrate js_val]. now apply (ts_array_reads vs a b).
  - destruct a as [| | | | | | | |fs|]; try contradiction.
    destruct b as [| | | | | | | |gs|gs]; try (destruct fs as [|? [|]]; contradiction).
    + now apply (ts_struct_reads ovs fs gs IH Hw Ha Hb Hc Hts isf).
    + (* struct with one required field read as a choice *)
      destruct fs as [|f [|]]; try contradiction. destruct gs as [|g [|]]; try contradiction.
      cbn [compat] in Hc. destruct Hc as (Ei & R1 & R2 & Hc).
      cbn [wt all2P] in Hw. destruct ovs as [|ov [|]]; try (now destruct Hw).
      destruct ov as [v|]; [|cbn in Hw; rewrite R1 in Hw; now destruct Hw].
      destruct Hw as [Hw _]. cbn [ty_wf allP ts_faithful] in Ha, Hb, Hts.
      destruct Ha as (_ & (Hif & Haf) & _), Hb as (_ & (Hig & Hbg) & _), Hts as [Hts _].
      assert (spec_encode isf (VStruct [Some v]) (TStruct [f]) = field_bytes f v) as E2
        by (cbn; apply app_nil_r).
      rewrite E2 in *. cbn [ts_decode ts_choice_loop]. cbv zeta.
      assert (lenN (spec_encode true v (f_type f)) <= lenN (field_bytes f v)) as Hle
        by (unfold field_bytes; rewrite lenN_app; lia).
      destruct (ts_field_at w 0 f v [] Hv Hw Haf Hif ltac:(lia)) as
        (off1 & w' & Eh & Eo & _ & En & Hvo & Hvl & Hvr & Erest); [now rewrite app_nil_r|].
      rewrite Eh. cbn [jbind map tassoc]. replace (f_index g =? f_index f) with true by lia.
      rewrite En. cbn [jbind].
      inversion IH as [|? ? IH1 _]; subst. cbn [optP] in IH1.
      rewrite (treads_at v (f_type f) (f_type g) true w') by (auto; lia).
      cbn [jbind]. rewrite R2. cbn [jbind migrate js_val fst snd]. rewrite Ei. reflexivity.
  - destruct a as [| | | | | | | | |fs]; try contradiction.
    destruct b as [| | | | | | | |gs|gs]; try (destruct fs as [|? [|]]; contradiction).
    + (* choice with one required field read as a struct *)
      destruct fs as [|f [|]]; try contradiction. destruct gs as [|g [|]]; try contradiction.
      cbn [compat] in Hc. destruct Hc as (Ei & R1 & R2 & Hc).
      cbn [wt find_field] in Hw. destruct (f_index f =? i) eqn:Efi; [|contradiction].
      destruct Hw as [Hw Hfb]. rewrite R1 in Hfb.
      destruct fb; [destruct Hfb; discriminate|]. cbn [ty_wf allP ts_faithful] in Ha, Hb, Hts.
      destruct Ha as (_ & (Hif & Haf) & _), Hb as (_ & (Hig & Hbg) & _), Hts as [Hts _].
      assert (spec_encode isf (VChoice i p None) (TChoice [f]) = field_bytes f p) as E2.
      { cbn [spec_encode find_field]. rewrite Efi, app_nil_r. reflexivity. }
      rewrite E2 in *. cbn [ts_decode]. cbv zeta.
      pose proof (field_bytes_length f p Haf Hif ltac:(lia)) as Hpos.
      assert (lenN (spec_encode true p (f_type f)) <= lenN (field_bytes f p)) as Hle
        by (unfold field_bytes; rewrite lenN_app; lia).
      pose proof (view_len w _ Hv E) as Hwl. pose proof (proj1 Hv) as Hvb.
      destruct (ts_field_at w 0 f p [] Hv Hw Haf Hif ltac:(lia)) as
        (off1 & w' & Eh & Eo & _ & En & Hvo & Hvl & Hvr & Erest); [now rewrite app_nil_r|].
      cbn [ts_struct_loop]. rewrite Eh. cbn [map tassoc].
      replace (f_index g =? f_index f) with true by lia.
      rewrite En. cbn [jbind].
      rewrite (treads_at p (f_type f) (f_type g) true w') by (auto; lia).
      cbn [jbind fst snd]. rewrite (N.add_comm _ off1), Eo.
      destruct (length (vbuf w)) as [|k] eqn:Ek; [unfold lenN in *; lia|].
      cbn [ts_struct_loop]. destruct (ts_end w _ Hv Erest) as (-> & _). cbn [jbind].
      unfold ts_missing. cbn [existsb map tassoc].
      replace (f_index f =? f_index g) with true by lia. rewrite R2. cbn [orb]. reflexivity.
    + pose proof Hc as Hc0. pose proof Hb as Hb0. pose proof Ha as Ha0.
      cbn [ty_wf compat] in Ha, Hb, Hc.
      destruct Ha as [Hnf Hwf], Hb as [Hng Hwg]. rewrite allP_Forall, Forall_forall in Hwf, Hwg, Hc.
      assert (forall isf, spec_encode isf (VChoice i p fb) (TChoice fs)
                = spec_encode true (VChoice i p fb) (TChoice fs)) as Hisf by (destruct isf0; reflexivity).
      rewrite Hisf in *. clear Hisf.
      cbn [wt] in Hw. cbn [ts_faithful] in Hts. cbn [spec_encode migrate] in *.
      destruct (find_field i fs) as [f|] eqn:Ef; [|contradiction].
      pose proof (find_field_in _ _ _ Ef) as [Hf Ei]. destruct Hw as [Hw Hfb], Hts as [Hts Htfb].
      destruct (Hwf f Hf) as [Hif Hwf1]. specialize (Hc f Hf). rewrite Ei in Hc.
      cbv zeta in Hl, E.
      match type of Hl with lenN (_ ++ _ ++ ?t) < _ => set (tail := t) in * end.
      assert (spec_header (f_index f) (lenN (spec_encode true p (f_type f)))
                (integer_encoded (f_type f)) ++ spec_encode true p (f_type f) ++ tail
              = field_bytes f p ++ tail) as E2 by (unfold field_bytes; now rewrite app_assoc).
      rewrite E2 in *. rewrite lenN_app in Hl.
      pose proof (field_bytes_length f p Hwf1 Hif ltac:(lia)) as Hpos.
      assert (lenN (spec_encode true p (f_type f)) <= lenN (field_bytes f p)) as Hle
        by (unfold field_bytes; rewrite lenN_app; lia).
      pose proof (view_len w _ Hv E) as Hwl. pose proof (proj1 Hv) as Hvb. rewrite lenN_app in Hwl.
      destruct (ts_field_at w 0 f p tail Hv Hw Hwf1 Hif ltac:(lia) E) as
        (off1 & w' & Eh & Eo & Hole & En & Hvo & Hvl & Hvr & Erest).
      cbn [ts_decode ts_choice_loop]. cbv zeta. rewrite Eh. cbn [jbind].
      rewrite tassoc_assoc, assoc_map_fields, Ei.
      set (off2 := 0 + lenN (field_bytes f p)) in *.
      pose proof (sub_from_ok w off2 Hv Hole) as Hv2.
      pose proof (sub_from_rest w off2 0) as Hr2. rewrite N.add_0_l, Erest in Hr2.
      assert (forall v', fb = Some v' ->
        ts_choice_loop (length (vbuf w)) (map (fun f => (f_index f, (f_rule f, ts_decode (f_type f) true))) gs)
          (sub_from w off2) 0 = JOk (js_val (migrate v' (TChoice fs) (TChoice gs)))) as Htail.
      { intros v' ->. cbn [optP] in IHfb. subst tail.
        pose proof (IHfb (TChoice fs) (TChoice gs) true (sub_from w off2) (proj2 Hfb) Ha0 Hb0 Hc0
                      Htfb ltac:(lia) Hv2 Hr2) as H. cbn [ts_decode] in H. cbv zeta in H.
        cbn [sub_from vbuf] in H.
        rewrite (ts_choice_fuel _ (length (vbuf w)) (S (length (vbuf w)))); [|exact Hv2| |];
          try (cbn [sub_from vlen]; unfold lenN in *; lia).
        destruct (ts_choice_loop (S (length (vbuf w))) _ _ 0) as [x| | |] eqn:Ex;
          cbn [jbind] in H; try discriminate H. injection H as Hx. now rewrite Hx. }
      destruct (find_field i gs) as [g|] eqn:Eg; cbn [omap].
      * destruct Hc as [Hc Hopt].
        pose proof (find_field_in _ _ _ Eg) as [Hg Eig].
        rewrite En. cbn [jbind].
        rewrite (treads_at p (f_type f) (f_type g) true w') by (auto; try lia; now apply Hwg).
        cbn [jbind]. destruct (f_rule g); cbn [jbind fst snd js_val]; try reflexivity.
        specialize (Hopt eq_refl). destruct fb as [v'|]; [|congruence].
        cbv zeta. rewrite (N.add_comm _ off1), Eo.
        replace (vlen w <? off2) with false by lia.
        unfold new_view. replace (voff w + off2 + (vlen w - off2) <=? lenN (vbuf w)) with true by lia.
        cbn [jbind]. fold (sub_from w off2). rewrite (Htail v' eq_refl). reflexivity.
      * destruct fb as [v'|]; [|congruence].
        rewrite Eo. rewrite <- (N.add_0_l off2). rewrite sub_from_choice by assumption.
        rewrite (Htail v' eq_refl). reflexivity.
Qed.
