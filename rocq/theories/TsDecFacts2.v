(** TypeScript deserialization of arbitrary input: termination, confinement, typing. *)
From Verif Require Export TsDecFacts.

(** ** JavaScript's view of a message and migration *)
Lemma migrate_js : forall v a b, migrate (js_val v) a b = js_val (migrate v a b).
Proof.
  induction v as [|x|n|z|x|bs|s|n|vs IH|ovs IH|i p fb IHp IHfb] using val_ind'; intros a b;
    try reflexivity.
  - destruct a; try reflexivity. destruct b; try reflexivity. cbn [js_val migrate]. f_equal.
    rewrite !map_map. apply map_ext_in. intros x Hx. rewrite Forall_forall in IH. now apply IH.
  - destruct a as [| | | | | | | |fs|]; try reflexivity.
    destruct b as [| | | | | | | |gs|gs]; try reflexivity.
    + cbn [js_val migrate]. f_equal. rewrite map_map. apply map_ext. intros g.
      revert fs. induction ovs as [|ov ovs IHo]; intros [|f fs]; try reflexivity.
      inversion IH as [|? ? IH1 IH2]; subst. cbn [map map2 slot_of].
      destruct (f_index f =? f_index g); [|now apply IHo].
      destruct ov as [v|]; [|reflexivity]. destruct (find_field (f_index f) gs); [|reflexivity].
      f_equal. apply IH1.
    + cbn [js_val migrate]. destruct ovs as [|[v|] [|]]; try reflexivity.
      cbn [map]. destruct fs as [|f [|]], gs as [|g [|]]; try reflexivity. cbn [js_val].
      f_equal. inversion IH; subst. now apply H1.
  - destruct a as [| | | | | | | | |fs]; try reflexivity.
    destruct b as [| | | | | | | |gs|gs]; try reflexivity.
    + cbn [js_val migrate]. destruct fs as [|f [|]], gs as [|g [|]]; try reflexivity. cbn [js_val map].
      now rewrite IHp.
    + cbn [js_val migrate]. destruct (find_field i fs) as [f|]; [destruct (find_field i gs) as [g|]|].
      * cbn [js_val]. rewrite IHp. f_equal. destruct (f_rule g); try reflexivity.
        destruct fb as [v'|]; [|reflexivity]. f_equal. apply IHfb.
      * destruct fb as [v'|]; [|reflexivity]. apply IHfb.
      * destruct fb as [v'|]; [|reflexivity]. apply IHfb.
Qed.
Lemma js_faithful : forall v, ts_faithful v -> ts_faithful (js_val v).
Proof.
  induction v as [|x|n|z|x|bs|s|n|vs IH|ovs IH|i p fb IHp IHfb] using val_ind'; intros H; try exact H.
  - cbn [js_val ts_faithful] in *. apply allP_Forall in H. apply allP_Forall. rewrite Forall_forall in *.
    intros x Hx. apply in_map_iff in Hx as (y & <- & Hy). auto.
  - cbn [js_val ts_faithful] in *. apply allP_Forall in H. apply allP_Forall. rewrite Forall_forall in *.
    intros x Hx. apply in_map_iff in Hx as ([y|] & <- & Hy); [|exact I]. apply (IH _ Hy). apply (H _ Hy).
  - cbn [js_val ts_faithful] in *. destruct H as [H1 H2]. split; [auto|]. destruct fb; auto.
Qed.

(** A view of [bs] inside a buffer. *)
Lemma view_in pre bs post : bytes_ok pre -> bytes_ok bs -> bytes_ok post ->
  view_ok (mkView (pre ++ bs ++ post) (lenN pre) (lenN bs)) /\
  vrest (mkView (pre ++ bs ++ post) (lenN pre) (lenN bs)) 0 = bs.
Proof.
  intros H1 H2 H3. split.
  - split; cbn; [rewrite !lenN_app; lia|]. repeat (apply bytes_ok_app; split); assumption.
  - unfold vrest. cbn. rewrite N.sub_0_r, N.add_0_r, dropN_app. apply takeN_app.
Qed.

Lemma ts_reads_message v a b pre bs post : wt DOut v a -> ty_wf a -> ty_wf b -> compat a b ->
  ts_faithful v -> size v a < two64 -> serialize v a = Some bs -> bytes_ok pre -> bytes_ok post ->
  ts_deserialize b (mkView (pre ++ bs ++ post) (lenN pre) (lenN bs)) = TsMessage (js_val (migrate v a b)).
Proof.
  intros Hw Ha Hb Hc Hts Hl Hs Hpre Hpost. rewrite (serialize_spec v a Hw Ha Hl) in Hs.
  injection Hs as <-. rewrite size_exact in Hl by assumption.
  destruct (view_in pre (spec_encode true v a) post Hpre) as [Hv Hr];
    [now apply spec_encode_ok|exact Hpost|].
  unfold ts_deserialize. now rewrite (treads_all v a b true _ Hw Ha Hb Hc Hts Hl Hv Hr).
Qed.

Lemma ts_serialize_ok v t : wt DOut v t -> ty_wf t -> size v t < two64 ->
  exists bs, ts_serialize v t = JOk bs /\ serialize (js_val v) t = Some bs /\ size v t = lenN bs /\
             ts_size v t = size v t /\ size (js_val v) t = size v t.
Proof.
  intros Hw Ht Hl. exists (spec_encode true (js_val v) t).
  assert (size (js_val v) t = size v t) as Hsz.
  { rewrite !size_exact by (auto using js_val_wt). apply js_val_len. }
  rewrite (serialize_spec (js_val v) t) by (auto using js_val_wt; lia).
  unfold ts_serialize. rewrite size_exact in Hl by assumption.
  rewrite (ts_serialize_spec v t Hw Ht Hl). repeat split.
  - rewrite size_exact by assumption. symmetry. apply js_val_len.
  - assert (jlookup (ts_atlas true v t) = size v t) as Ha.
    { rewrite size_exact by assumption. now apply js_spec. }
    unfold ts_size. destruct t as [| | | | | | | |[|f fs]|[|f fs]]; try exact Ha.
    + destruct v; try contradiction. cbn [wt] in Hw. destruct ovs; [|contradiction]. reflexivity.
    + destruct v; contradiction.
  - exact Hsz.
Qed.

(** ** Termination *)
Definition noF {A} (x : jres A) : Prop := x <> JFuel.
Lemma noF_bind {A B} (x : jres A) (k : A -> jres B) :
  noF x -> (forall a, x = JOk a -> noF (k a)) -> noF (jbind x k).
Proof. unfold noF. destruct x; cbn [jbind]; intros H Hk; auto; discriminate. Qed.
Lemma noF_jsnd {A B} (f : A -> B) x : noF x -> noF (jsnd f x).
Proof. intros H. apply noF_bind; [exact H|discriminate]. Qed.
Lemma noF_varint w off : view_ok w -> noF (ts_deserialize_varint w off).
Proof.
  intros Hv. rewrite ts_deserialize_varint_eq by exact Hv. destruct (deserialize_varint _); discriminate.
Qed.
Lemma noF_header w off : view_ok w -> noF (ts_deserialize_header w off).
Proof.
  intros Hv. rewrite ts_deserialize_header_eq by exact Hv.
  destruct (deserialize_field_header _) as [[? ?] ?|?| | |]; discriminate.
Qed.
Lemma noF_u64 isf psz w off : view_ok w -> noF (ts_dec_u64 isf psz w off).
Proof.
  intros Hv. unfold ts_dec_u64. destruct isf; [|now apply noF_varint].
  destruct (psz =? 0); [discriminate|]. destruct (psz =? 8); [|now apply noF_varint].
  apply noF_bind; [|discriminate]. unfold get_u64, jmap, vget. destruct (_ <=? _); discriminate.
Qed.
Lemma noF_f64 isf psz w off : noF (ts_dec_f64 isf psz w off).
Proof.
  unfold ts_dec_f64. destruct (isf && _); [discriminate|].
  apply noF_bind; [|discriminate]. unfold get_u64, jmap, vget. destruct (_ <=? _); discriminate.
Qed.
Lemma noF_new_view b o l : noF (new_view b o l).
Proof. unfold new_view. destruct (_ <=? _); discriminate. Qed.
Lemma varint_progress w off o n : view_ok w -> ts_deserialize_varint w off = JOk (o, n) ->
  off < o <= vlen w.
Proof.
  intros Hv H. pose proof H as H0. rewrite ts_deserialize_varint_eq in H by exact Hv.
  destruct (deserialize_varint (vrest w off)) as [n' rest|e| | |] eqn:E; try discriminate H.
  destruct (ts_varint_step w _ _ _ Hv E) as (Ho & _ & E2). rewrite H0 in E2. injection E2 as -> ->.
  exact Ho.
Qed.
Lemma elem_progress e w off o v : view_ok w -> is_unit e = false -> sized_element e = false ->
  ts_decode e false 0 w off = JOk (o, v) -> off < o <= vlen w.
Proof.
  intros Hv Hu Hs H.
  assert (forall A (f : N -> A) x, jsnd f (ts_dec_u64 false 0 w off) = JOk (o, x) -> off < o <= vlen w) as Hint.
  { intros A f x Hx. unfold jsnd in Hx. cbn [ts_dec_u64] in Hx. unfold ts_dec_u64 in Hx.
    destruct (ts_deserialize_varint w off) as [[o' n]| | |] eqn:E; try discriminate Hx.
    injection Hx as <- _. now apply (varint_progress w off o' n). }
  destruct e; try discriminate; cbn [ts_decode] in H; try (eapply Hint; exact H).
  unfold ts_dec_f64, jsnd in H. cbn [andb] in H. unfold get_u64, jmap, vget in H.
  destruct (off + 8 <=? vlen w) eqn:E; [|discriminate H]. cbn [jbind] in H. injection H as <- _. cbn. lia.
Qed.

Lemma noF_small e w : view_ok w -> is_unit e = false -> sized_element e = false ->
  forall n off, vlen w - off < N.of_nat n ->
  noF (ts_small_loop n (fun off => ts_decode e false 0 w off) off).
Proof.
  intros Hv Hu Hs. induction n as [|n IH]; intros off Hn; [lia|]. cbn [ts_small_loop].
  destruct (ts_decode e false 0 w off) as [[o v]| | |] eqn:E; try discriminate.
  - apply noF_jsnd, IH. pose proof (elem_progress e w off o v Hv Hu Hs E). lia.
  - exfalso. clear - E Hv Hs Hu. destruct e; try discriminate; cbn [ts_decode] in E; unfold jsnd in E;
      (destruct (ts_dec_u64 _ _ _ _) eqn:E2 in E || destruct (ts_dec_f64 _ _ _ _) eqn:E2 in E);
      try discriminate E; revert E2; try apply noF_u64; try apply noF_f64; auto.
Qed.
Lemma noF_sized el w : view_ok w -> (forall sz w', view_ok w' -> noF (el sz w' 0)) ->
  forall n off, vlen w - off < N.of_nat n -> noF (ts_sized_loop n el w off).
Proof.
  intros Hv Hel. induction n as [|n IH]; intros off Hn; [lia|]. cbn [ts_sized_loop].
  destruct (ts_deserialize_varint w off) as [[o sz]| | |] eqn:E; try discriminate.
  - pose proof (varint_progress w off o sz Hv E). apply noF_bind; [apply noF_new_view|].
    intros w' Ew. apply (new_view_ok w) in Ew; [|exact Hv].
    apply noF_bind; [apply Hel, Ew|]. intros [o2 x] _. apply noF_jsnd, IH. cbn [fst]. lia.
  - exfalso. revert E. now apply noF_varint.
Qed.
Lemma noF_struct (ds : list (N * tdecoder)) w : view_ok w ->
  (forall i d, tassoc i ds = Some d -> forall sz w', view_ok w' -> noF (d sz w' 0)) ->
  forall n slots off, vlen w - off < N.of_nat n -> noF (ts_struct_loop n ds slots w off).
Proof.
  intros Hv Hd. induction n as [|n IH]; intros slots off Hn; [lia|]. cbn [ts_struct_loop].
  destruct (ts_deserialize_header w off) as [[[o i] sz]| | |] eqn:E; try discriminate.
  - pose proof (ts_header_progress _ _ _ _ _ Hv E). destruct (tassoc i ds) as [d|] eqn:Ed.
    + apply noF_bind; [apply noF_new_view|]. intros w' Ew. apply (new_view_ok w) in Ew; [|exact Hv].
      apply noF_bind; [eapply Hd; [exact Ed|apply Ew]|]. intros [o2 x] _. apply IH. cbn [fst]. lia.
    + apply IH. lia.
  - exfalso. revert E. now apply noF_header.
Qed.
Lemma noF_choice (ds : list (N * (rule * tdecoder))) :
  (forall i r d, tassoc i ds = Some (r, d) -> forall sz w', view_ok w' -> noF (d sz w' 0)) ->
  forall n w off, view_ok w -> vlen w - off < N.of_nat n -> noF (ts_choice_loop n ds w off).
Proof.
  intros Hd. induction n as [|n IH]; intros w off Hv Hn; [lia|]. cbn [ts_choice_loop].
  apply noF_bind; [now apply noF_header|]. intros [[o i] sz] E.
  pose proof (ts_header_progress _ _ _ _ _ Hv E). destruct (tassoc i ds) as [[r d]|] eqn:Ed.
  - apply noF_bind; [apply noF_new_view|]. intros w' Ew. apply (new_view_ok w) in Ew; [|exact Hv].
    apply noF_bind; [eapply Hd; [exact Ed|apply Ew]|]. intros [o2 x] _. destruct r; try discriminate.
    cbv zeta. cbn [fst snd]. destruct (vlen w <? o2 + o); [discriminate|].
    apply noF_bind; [apply noF_new_view|]. intros w2 Ew2. apply (new_view_ok w) in Ew2; [|exact Hv].
    destruct Ew2 as (Hv2 & _ & _ & Hl2). apply noF_bind; [|discriminate]. apply IH; [exact Hv2|lia].
  - apply IH; [exact Hv|lia].
Qed.

Lemma tassoc_fields {A} (g : field_of ty -> A) i fs :
  tassoc i (map (fun f => (f_index f, g f)) fs) = omap g (find_field i fs).
Proof. rewrite tassoc_assoc. apply assoc_map_fields. Qed.

Lemma ts_decode_returns : forall t isf psz w off, view_ok w -> noF (ts_decode t isf psz w off).
Proof.
  induction t as [| | | | | | |e IH|fs IH|fs IH] using ty_ind'; intros isf psz w off Hv;
    pose proof (proj1 Hv) as Hvb; cbn [ts_decode]; cbv zeta.
  - discriminate.
  - apply noF_jsnd, noF_f64.
  - now apply noF_jsnd, noF_u64.
  - now apply noF_jsnd, noF_u64.
  - now apply noF_jsnd, noF_u64.
  - discriminate.
  - destruct (vlen w <? off); discriminate.
  - assert (sized_element e = true ->
      noF (jsnd VArr (ts_sized_loop (S (length (vbuf w))) (ts_decode e false) w off))) as Hsz.
    { intros _. apply noF_jsnd, noF_sized; [exact Hv|intros; now apply IH|unfold lenN in *; lia]. }
    assert (is_unit e = false -> sized_element e = false ->
      noF (jsnd VArr (ts_small_loop (S (length (vbuf w))) (fun off => ts_decode e false 0 w off) off))) as Hsm.
    { intros Hu Hs. apply noF_jsnd, noF_small; auto. unfold lenN in *; lia. }
    destruct e; try (now apply Hsz); try (now apply Hsm).
    apply noF_bind; [now apply noF_u64|]. intros [o n] _. cbn [snd]. destruct (n <? _); discriminate.
  - apply noF_bind.
    + apply noF_struct; [exact Hv| |unfold lenN in *; lia].
      intros i d Hd sz w' Hv'. rewrite tassoc_fields in Hd.
      destruct (find_field i fs) as [f|] eqn:Ef; [|discriminate]. injection Hd as <-.
      apply find_field_in in Ef as [Hf _]. rewrite Forall_forall in IH. now apply IH.
    + intros slots _. destruct (ts_missing fs slots); discriminate.
  - apply noF_bind; [|discriminate].
    apply noF_choice; [|exact Hv|unfold lenN in *; lia].
    intros i r d Hd sz w' Hv'. rewrite tassoc_fields in Hd.
    destruct (find_field i fs) as [f|] eqn:Ef; [|discriminate]. injection Hd as <- <-.
    apply find_field_in in Ef as [Hf _]. rewrite Forall_forall in IH. now apply IH.
Qed.

(** ** Confinement: the same bytes inside another buffer *)
Definition shifted (pre post : bytes) (w w' : view) : Prop :=
  vbuf w' = pre ++ vbuf w ++ post /\ voff w' = lenN pre + voff w /\ vlen w' = vlen w /\
  view_ok w /\ view_ok w'.
Lemma shifted_rest pre post w w' off : shifted pre post w w' -> vrest w' off = vrest w off.
Proof.
  intros (H1 & H2 & H3 & [H4 _] & _). unfold vrest. rewrite H1, H2, H3.
  destruct (N.le_gt_cases off (vlen w)) as [Ho|Ho].
  - replace (lenN pre + voff w + off) with (lenN pre + (voff w + off)) by lia.
    rewrite <- dropN_dropN, dropN_app.
    rewrite <- (take_drop (voff w + off) (vbuf w)) at 1. rewrite <- app_assoc.
    rewrite dropN_app_eq by (rewrite lenN_takeN; lia).
    rewrite !takeN_firstn, firstn_app.
    replace (N.to_nat (vlen w - off) - length (dropN (voff w + off) (vbuf w)))%nat with 0%nat
      by (pose proof (lenN_dropN (voff w + off) (vbuf w)); unfold lenN in *; lia).
    cbn [firstn]. now rewrite app_nil_r.
  - replace (vlen w - off) with 0 by lia. now rewrite !takeN_0.
Qed.
Lemma shifted_vget pre post w w' off n : shifted pre post w w' -> 0 < n -> vget w' off n = vget w off n.
Proof.
  intros Hs Hn. pose proof Hs as (_ & _ & _ & H4 & H5).
  rewrite !vget_rest by assumption. now rewrite (shifted_rest pre post w w').
Qed.
Lemma shifted_varint pre post w w' off : shifted pre post w w' ->
  ts_deserialize_varint w' off = ts_deserialize_varint w off.
Proof.
  intros Hs. pose proof Hs as (_ & _ & H3 & H4 & H5). rewrite !ts_deserialize_varint_eq by assumption.
  rewrite (shifted_rest pre post w w') by exact Hs. unfold as_js. now rewrite H3.
Qed.
Lemma shifted_header pre post w w' off : shifted pre post w w' ->
  ts_deserialize_header w' off = ts_deserialize_header w off.
Proof.
  intros Hs. pose proof Hs as (_ & _ & H3 & H4 & H5). rewrite !ts_deserialize_header_eq by assumption.
  rewrite (shifted_rest pre post w w') by exact Hs. now rewrite H3.
Qed.
Lemma shifted_u64 pre post w w' isf psz off : shifted pre post w w' ->
  ts_dec_u64 isf psz w' off = ts_dec_u64 isf psz w off.
Proof.
  intros Hs. unfold ts_dec_u64, get_u64. rewrite (shifted_varint pre post w w'), (shifted_vget pre post w w')
    by (auto; lia). reflexivity.
Qed.
Lemma shifted_f64 pre post w w' isf psz off : shifted pre post w w' ->
  ts_dec_f64 isf psz w' off = ts_dec_f64 isf psz w off.
Proof.
  intros Hs. unfold ts_dec_f64, get_u64. rewrite (shifted_vget pre post w w') by (auto; lia). reflexivity.
Qed.
Lemma shifted_new pre post w w' off sz w1 : shifted pre post w w' ->
  new_view (vbuf w) (voff w + off) sz = JOk w1 ->
  exists w1', new_view (vbuf w') (voff w' + off) sz = JOk w1' /\ shifted pre post w1 w1'.
Proof.
  intros (H1 & H2 & H3 & H4 & H5) E.
  destruct (new_view_ok w _ _ _ H4 E) as (Hv1 & Hb1 & Ho1 & Hl1).
  exists (mkView (vbuf w') (voff w' + off) sz).
  assert (voff w' + off + sz <= lenN (vbuf w')) as Hle.
  { pose proof (proj1 Hv1) as Hv1b. rewrite Hb1, Ho1, Hl1 in Hv1b. rewrite H1, H2, !lenN_app. lia. }
  split.
  - unfold new_view. now replace (voff w' + off + sz <=? lenN (vbuf w')) with true by lia.
  - split; [cbn; now rewrite H1, Hb1|]. split; [cbn; rewrite Ho1, H2; lia|].
    split; [cbn; now rewrite Hl1|]. split; [exact Hv1|]. split; [exact Hle|exact (proj2 H5)].
Qed.

(** [x] in isolation is definite: neither a [RangeError] nor out of fuel. *)
Definition keeps {A} (x y : jres A) : Prop := x = JRange \/ x = JFuel \/ y = x.
Lemma keeps_refl {A} (x : jres A) : keeps x x. Proof. right. now right. Qed.
Lemma keeps_bind {A B} (x y : jres A) (k k' : A -> jres B) :
  keeps x y -> (forall a, x = JOk a -> keeps (k a) (k' a)) -> keeps (jbind x k) (jbind y k').
Proof.
  intros [H|[H|H]] Hk; subst; [now left|right; now left|].
  destruct x; cbn [jbind]; auto using keeps_refl.
Qed.
Lemma keeps_jsnd {A B} (f : A -> B) x y : keeps x y -> keeps (jsnd f x) (jsnd f y).
Proof. intros H. apply keeps_bind; auto using keeps_refl. Qed.

Definition keeps_dec (d d' : tdecoder) pre post : Prop :=
  forall sz w w', shifted pre post w w' -> keeps (d sz w 0) (d' sz w' 0).

Lemma keeps_new pre post w w' off sz (B : Type) (k k' : view -> jres B) : shifted pre post w w' ->
  (forall w1 w1', shifted pre post w1 w1' -> vlen w1 = sz -> keeps (k w1) (k' w1')) ->
  keeps (jbind (new_view (vbuf w) (voff w + off) sz) k)
        (jbind (new_view (vbuf w') (voff w' + off) sz) k').
Proof.
  intros Hs Hk. destruct (new_view (vbuf w) (voff w + off) sz) as [w1| | |] eqn:E.
  - destruct (shifted_new _ _ _ _ _ _ _ Hs E) as (w1' & -> & Hs'). cbn [jbind].
    apply Hk; [exact Hs'|]. apply (new_view_ok w) in E; [apply E|apply Hs].
  - now left.
  - unfold new_view in E. destruct (_ <=? _); discriminate.
  - right; now left.
Qed.

Lemma keeps_small pre post e w w' : shifted pre post w w' ->
  (forall off, keeps (ts_decode e false 0 w off) (ts_decode e false 0 w' off)) ->
  (forall off, ts_decode e false 0 w off = JRange -> ts_decode e false 0 w' off = JRange) ->
  forall n m off, (n <= m)%nat ->
  keeps (ts_small_loop n (fun off => ts_decode e false 0 w off) off)
        (ts_small_loop m (fun off => ts_decode e false 0 w' off) off).
Proof.
  intros Hs Hk Hr. induction n as [|n IH]; intros m off Hm; [right; now left|].
  destruct m as [|m]; [lia|]. cbn [ts_small_loop]. pose proof (Hk off) as Hko. pose proof (Hr off) as Hro.
  destruct (ts_decode e false 0 w off) as [[o v]| | |]; destruct Hko as [Hko|[Hko|Hko]]; try discriminate;
    try rewrite Hko; try (rewrite (Hro eq_refl)); try apply keeps_refl; try (right; now left).
  apply keeps_jsnd, IH. lia.
Qed.
Lemma keeps_sized pre post el el' : keeps_dec el el' pre post -> forall n m w w' off, (n <= m)%nat ->
  shifted pre post w w' -> keeps (ts_sized_loop n el w off) (ts_sized_loop m el' w' off).
Proof.
  intros Hel. induction n as [|n IH]; intros m w w' off Hm Hs; [right; now left|].
  destruct m as [|m]; [lia|]. cbn [ts_sized_loop]. rewrite (shifted_varint pre post w w') by exact Hs.
  destruct (ts_deserialize_varint w off) as [[o sz]| | |]; try apply keeps_refl.
  eapply keeps_new; [exact Hs|]. intros w1 w1' Hs1 _. apply keeps_bind; [now apply Hel|].
  intros [o2 x] _. apply keeps_jsnd, IH; [lia|exact Hs].
Qed.
Lemma keeps_struct pre post (ds ds' : list (N * tdecoder)) :
  (forall i, match tassoc i ds, tassoc i ds' with
             | Some d, Some d' => keeps_dec d d' pre post | None, None => True | _, _ => False end) ->
  forall n m slots w w' off, (n <= m)%nat -> shifted pre post w w' ->
  keeps (ts_struct_loop n ds slots w off) (ts_struct_loop m ds' slots w' off).
Proof.
  intros Hd. induction n as [|n IH]; intros m slots w w' off Hm Hs; [right; now left|].
  destruct m as [|m]; [lia|]. cbn [ts_struct_loop]. rewrite (shifted_header pre post w w') by exact Hs.
  destruct (ts_deserialize_header w off) as [[[o i] sz]| | |]; try apply keeps_refl.
  specialize (Hd i). destruct (tassoc i ds) as [d|], (tassoc i ds') as [d'|]; try contradiction.
  - eapply keeps_new; [exact Hs|]. intros w1 w1' Hs1 _. apply keeps_bind; [now apply Hd|].
    intros [o2 x] _. apply IH; [lia|exact Hs].
  - apply IH; [lia|exact Hs].
Qed.
Lemma keeps_choice pre post (ds ds' : list (N * (rule * tdecoder))) :
  (forall i, match tassoc i ds, tassoc i ds' with
             | Some (r, d), Some (r', d') => r = r' /\ keeps_dec d d' pre post
             | None, None => True | _, _ => False end) ->
  forall n m w w' off, (n <= m)%nat -> shifted pre post w w' ->
  keeps (ts_choice_loop n ds w off) (ts_choice_loop m ds' w' off).
Proof.
  intros Hd. induction n as [|n IH]; intros m w w' off Hm Hs; [right; now left|].
  destruct m as [|m]; [lia|]. cbn [ts_choice_loop]. rewrite (shifted_header pre post w w') by exact Hs.
  apply keeps_bind; [apply keeps_refl|]. intros [[o i] sz] _.
  pose proof (Hd i) as Hdi. destruct (tassoc i ds) as [[r d]|], (tassoc i ds') as [[r' d']|]; try contradiction.
  - destruct Hdi as [<- Hdi].
    eapply keeps_new; [exact Hs|]. intros w1 w1' Hs1 _. apply keeps_bind; [now apply Hdi|].
    intros [o2 x] _. destruct r; try apply keeps_refl. cbv zeta. cbn [fst snd].
    pose proof Hs as (_ & _ & H3 & _ & _). rewrite H3.
    destruct (vlen w <? o2 + o); [now left|]. eapply keeps_new; [exact Hs|].
    intros w2 w2' Hs2 _. apply keeps_bind; [|intros; apply keeps_refl]. apply IH; [lia|exact Hs2].
  - apply IH; [lia|exact Hs].
Qed.

Lemma shifted_fuel pre post w w' : shifted pre post w w' -> (S (length (vbuf w)) <= S (length (vbuf w')))%nat.
Proof. intros (H1 & _). rewrite H1, !app_length. lia. Qed.

Lemma ts_decode_keeps pre post : forall t isf psz w w' off, shifted pre post w w' ->
  keeps (ts_decode t isf psz w off) (ts_decode t isf psz w' off).
Proof.
  induction t as [| | | | | | |e IH|fs IH|fs IH] using ty_ind'; intros isf psz w w' off Hs;
    pose proof (shifted_fuel _ _ _ _ Hs) as Hfu; pose proof Hs as (_ & _ & H3 & _ & _);
    cbn [ts_decode]; cbv zeta.
  - apply keeps_refl.
  - rewrite (shifted_f64 pre post w w') by exact Hs. apply keeps_refl.
  - rewrite (shifted_u64 pre post w w') by exact Hs. apply keeps_refl.
  - rewrite (shifted_u64 pre post w w') by exact Hs. apply keeps_refl.
  - rewrite (shifted_u64 pre post w w') by exact Hs. apply keeps_refl.
  - right; right. pose proof (shifted_rest pre post w w' off Hs) as E. unfold vrest in E. now rewrite E, H3.
  - right; right. pose proof (shifted_rest pre post w w' off Hs) as E. unfold vrest in E. now rewrite E, H3.
  - assert (sized_element e = true ->
      keeps (jsnd VArr (ts_sized_loop (S (length (vbuf w))) (ts_decode e false) w off))
            (jsnd VArr (ts_sized_loop (S (length (vbuf w'))) (ts_decode e false) w' off))) as Hsz.
    { intros _. apply keeps_jsnd. eapply keeps_sized; [|exact Hfu|exact Hs].
      intros sz w1 w1' Hs1. now apply IH. }
    assert ((forall off, ts_decode e false 0 w' off = ts_decode e false 0 w off) ->
      keeps (jsnd VArr (ts_small_loop (S (length (vbuf w))) (fun off => ts_decode e false 0 w off) off))
            (jsnd VArr (ts_small_loop (S (length (vbuf w'))) (fun off => ts_decode e false 0 w' off) off))) as Hsm.
    { intros He. apply keeps_jsnd. eapply keeps_small; [exact Hs| | |exact Hfu].
      - intros o. rewrite He. apply keeps_refl.
      - intros o. now rewrite He. }
    destruct e; try (now apply Hsz);
      try (apply Hsm; intros o; cbn [ts_decode];
           now rewrite ?(shifted_u64 pre post w w'), ?(shifted_f64 pre post w w')).
    rewrite (shifted_u64 pre post w w') by exact Hs. apply keeps_refl.
  - apply keeps_bind.
    + eapply keeps_struct; [|exact Hfu|exact Hs]. intros i. rewrite tassoc_fields.
      destruct (find_field i fs) as [f|] eqn:Ef; cbn [omap]; [|exact I].
      apply find_field_in in Ef as [Hf _]. rewrite Forall_forall in IH. intros sz w1 w1' Hs1. now apply IH.
    + intros slots _. rewrite H3. apply keeps_refl.
  - apply keeps_bind.
    + eapply keeps_choice; [|exact Hfu|exact Hs]. intros i. rewrite tassoc_fields.
      destruct (find_field i fs) as [f|] eqn:Ef; cbn [omap]; [|exact I].
      apply find_field_in in Ef as [Hf _]. rewrite Forall_forall in IH. split; [reflexivity|].
      intros sz w1 w1' Hs1. now apply IH.
    + intros x _. rewrite H3. apply keeps_refl.
Qed.

Lemma ts_message_confined t pre bs post x : bytes_ok pre -> bytes_ok bs -> bytes_ok post ->
  ts_deserialize t (whole bs) = TsMessage x ->
  ts_deserialize t (mkView (pre ++ bs ++ post) (lenN pre) (lenN bs)) = TsMessage x.
Proof.
  intros H1 H2 H3 H. unfold ts_deserialize in *. cbn [vlen whole] in *.
  assert (shifted pre post (whole bs) (mkView (pre ++ bs ++ post) (lenN pre) (lenN bs))) as Hs.
  { split; [reflexivity|]. split; [cbn; lia|]. split; [reflexivity|]. split.
    - split; [cbn; lia|exact H2].
    - now apply view_in. }
  destruct (ts_decode_keeps pre post t true (lenN bs) _ _ 0 Hs) as [E|[E|E]]; rewrite E in *;
    try discriminate H. exact H.
Qed.
