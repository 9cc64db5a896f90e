(** The TypeScript serializer writes exactly the documented format. *)
From Verif Require Export TsCodec TsPrimFacts SerializeFacts.

Lemma js_bits_zero b : (js_bits b =? 0) = (b =? 0).
Proof.
  unfold js_bits. destruct (is_nan b) eqn:E; [|reflexivity].
  unfold is_nan in E. apply andb_prop in E as [E _].
  destruct (b =? 0) eqn:Eb; [|reflexivity].
  replace b with 0 in E by lia. discriminate E.
Qed.
Lemma js_bits_lt b : b < two64 -> js_bits b < two64.
Proof. intros H. unfold js_bits. destruct (is_nan b); [reflexivity|exact H]. Qed.
Lemma js_bits_idem b : js_bits (js_bits b) = js_bits b.
Proof. unfold js_bits. destruct (is_nan b) eqn:E; [reflexivity|]. now rewrite E. Qed.

(** JavaScript's view of a message is still a message of the same type. *)
Lemma js_val_wt d : forall v t, wt d v t -> wt d (js_val v) t.
Proof.
  induction v as [|b|n|z|b|bs|s|n|vs IH|ovs IH|i p fb IHp IHfb] using val_ind'; intros t Hw;
    destruct t; try contradiction; try exact Hw; cbn [js_val].
  - now apply js_bits_lt.
  - cbn [wt] in *. destruct Hw as [Hu Hw]. split; [exact Hu|]. apply allP_Forall in Hw.
    apply allP_Forall. apply Forall_forall. intros x Hx. apply in_map_iff in Hx as (y & <- & Hy).
    rewrite Forall_forall in IH, Hw. now apply IH, Hw.
  - cbn [wt] in *. revert fs Hw. induction ovs as [|ov ovs IHo]; intros [|f fs] Hw; try contradiction;
      [exact I|]. inversion IH; subst. destruct Hw as [Hw1 Hw2]. cbn [map all2P]. split.
    + destruct ov as [v|]; [now apply H1|exact Hw1].
    + now apply IHo.
  - cbn [wt] in *. destruct (find_field i fs) as [f|] eqn:Ef; [|contradiction].
    destruct Hw as [Hw1 Hw2]. split; [now apply IHp|].
    destruct fb as [v'|]; [|exact Hw2]. destruct Hw2 as [H1 H2]. split; [exact H1|].
    apply (IHfb (TChoice fs)). exact H2.
Qed.
Lemma js_val_idem : forall v, js_val (js_val v) = js_val v.
Proof.
  induction v as [|b|n|z|b|bs|s|n|vs IH|ovs IH|i p fb IHp IHfb] using val_ind'; try reflexivity;
    cbn [js_val].
  - now rewrite js_bits_idem.
  - f_equal. rewrite map_map. apply map_ext_in. intros x Hx. rewrite Forall_forall in IH. now apply IH.
  - f_equal. rewrite map_map. apply map_ext_in. intros [x|] Hx; [|reflexivity].
    rewrite Forall_forall in IH. f_equal. exact (IH _ Hx).
  - rewrite IHp. destruct fb as [v'|]; [|reflexivity]. cbn in IHfb. now rewrite IHfb.
Qed.

(** Sizes do not depend on the NaN patterns. *)
Lemma js_val_len : forall v t isf, lenN (spec_encode isf (js_val v) t) = lenN (spec_encode isf v t).
Proof.
  induction v as [|b|n|z|b|bs|s|n|vs IH|ovs IH|i p fb IHp IHfb] using val_ind'; intros t isf;
    destruct t; try reflexivity; cbn [js_val].
  - cbn [spec_encode]. rewrite js_bits_zero. destruct (isf && (b =? 0)); [reflexivity|].
    now rewrite !lenN_le_bytes.
  - cbn [spec_encode]. induction vs as [|v vs IHv]; [reflexivity|].
    inversion IH as [|? ? Hv Hvs]; subst. cbn [map flat_map]. rewrite !lenN_app, IHv by exact Hvs.
    f_equal. destruct (sized_element t); rewrite ?lenN_app, ?Hv; reflexivity.
  - cbn [spec_encode]. revert fs. induction ovs as [|ov ovs IHo]; intros [|f fs]; try reflexivity.
    inversion IH as [|? ? Hv Hvs]; subst. cbn [map map2 concat]. rewrite !lenN_app, IHo by exact Hvs.
    f_equal. destruct ov as [v|]; [|reflexivity]. cbn in Hv. rewrite !lenN_app, Hv. reflexivity.
  - cbn [spec_encode]. destruct (find_field i fs) as [f|]; [|reflexivity].
    rewrite !lenN_app, IHp. f_equal. f_equal.
    destruct fb as [v'|]; [|reflexivity]. exact (IHfb (TChoice fs) true).
Qed.

Definition js_good (v : val) : Prop := forall t isf, wt DOut v t -> ty_wf t ->
  lenN (spec_encode isf v t) < two64 ->
  jlookup (ts_atlas isf v t) = lenN (spec_encode isf v t) /\
  emits (ts_ser isf v t (ts_atlas isf v t)) (spec_encode isf (js_val v) t).

Lemma emits_skip : emits jskip [].
Proof. intros buf off H. unfold jskip. do 2 f_equal; rewrite ?lenN_nil, ?N.add_0_r; [|reflexivity].
  symmetry. apply take_drop. Qed.
Lemma emits_then a b x y : emits a x -> emits b y -> emits (jthen a b) (x ++ y).
Proof. intros. now apply (emits_bind a b). Qed.
Lemma emits_put bs : emits (jput bs) bs.
Proof. intros buf off H. unfold jput. rewrite vset_ok by exact H. reflexivity. Qed.
Lemma emits_u64 isf n : n < two64 -> emits (ts_ser_u64 isf n) (spec_u64 isf n).
Proof.
  intros Hn. unfold ts_ser_u64, spec_u64. destruct isf; [|now apply emits_varint].
  destruct (567382630219903 <? n) eqn:E.
  - replace (n =? 0) with false by lia. replace (n <? 567382630219904) with false by lia.
    apply emits_put.
  - destruct (n =? 0) eqn:E0; cbn [negb]; [apply emits_skip|].
    replace (n <? 567382630219904) with true by lia. now apply emits_varint.
Qed.
Lemma ts_atlas_u64_eq isf n : n < two64 -> ts_atlas_u64 isf n = lenN (spec_u64 isf n).
Proof.
  intros Hn. unfold ts_atlas_u64, spec_u64. destruct isf; [|now rewrite ts_varint_size_eq, spec_varint_length].
  destruct (n =? 0); [reflexivity|].
  destruct (n <? _); [now rewrite ts_varint_size_eq, spec_varint_length|now rewrite lenN_le_bytes].
Qed.
Lemma ts_zz z : i64_ok z -> Z.to_N (ts_zigzag_encode z) = spec_zigzag z.
Proof. intros H. rewrite ts_zigzag_encode_eq, N2Z.id by exact H. now apply zigzag_encode_spec. Qed.

Lemma js_array_small e vs a :
  Forall js_good vs -> Forall (fun v => wt DOut v e) vs -> ty_wf e ->
  (forall v a, ts_ser false v e a = ts_ser false v e (ts_atlas false v e)) ->
  lenN (flat_map (fun v => spec_encode false v e) vs) < two64 ->
  (forall x, fold_left (fun x v => x + jlookup (ts_atlas false v e)) vs x
             = x + lenN (flat_map (fun v => spec_encode false v e) vs)) /\
  emits (jseq (map (fun v => ts_ser false v e a) vs))
        (flat_map (fun v => spec_encode false v e) (map js_val vs)).
Proof.
  intros Hg Hw Hwf Hig. induction vs as [|v vs IH]; intros Hl.
  - split; [|exact emits_skip].
    intros x. cbn [fold_left flat_map map]. rewrite lenN_nil. lia.
  - inversion Hg; inversion Hw; subst. cbn [flat_map] in *. rewrite lenN_app in Hl.
    destruct (IH ltac:(assumption) ltac:(assumption) ltac:(lia)) as (I1 & I2).
    destruct (H1 e false) as (J1 & J2); [assumption|assumption|lia|].
    split.
    + intros x. cbn [fold_left]. rewrite I1, J1, lenN_app. lia.
    + cbn [map jseq fold_right flat_map]. rewrite (Hig v a). now apply emits_then.
Qed.

Lemma js_array_sized e vs :
  Forall js_good vs -> Forall (fun v => wt DOut v e) vs -> ty_wf e ->
  lenN (flat_map (sized_bytes e) vs) < two64 ->
  (forall x, fold_left (fun x a => x + (ts_varint_size (jlookup a) + jlookup a))
               (map (fun v => ts_atlas false v e) vs) x
             = x + lenN (flat_map (sized_bytes e) vs)) /\
  emits (jseq (map2 (fun v pa => jthen (jvarint (jlookup pa)) (ts_ser false v e pa))
             vs (map (fun v => ts_atlas false v e) vs)))
        (flat_map (sized_bytes e) (map js_val vs)).
Proof.
  intros Hg Hw Hwf. induction vs as [|v vs IH]; intros Hl.
  - split; [|exact emits_skip].
    intros x. cbn [fold_left flat_map map]. rewrite lenN_nil. lia.
  - inversion Hg; inversion Hw; subst. cbn [flat_map] in *. rewrite lenN_app in Hl.
    unfold sized_bytes at 1 in Hl. rewrite lenN_app in Hl.
    destruct (IH ltac:(assumption) ltac:(assumption) ltac:(lia)) as (I1 & I2).
    destruct (H1 e false) as (J1 & J2); [assumption|assumption|lia|].
    assert (lenN (spec_encode false v e) < two64) as Hv by lia.
    split.
    + intros x. cbn [fold_left map]. rewrite I1, J1. unfold sized_bytes at 2.
      rewrite !lenN_app, spec_varint_length, ts_varint_size_eq by exact Hv. lia.
    + cbn [map map2 jseq fold_right flat_map]. apply emits_then; [|exact I2].
      unfold sized_bytes. apply emits_then; [|exact J2]. rewrite J1, js_val_len. now apply emits_varint.
Qed.

Lemma js_field_good v f : js_good v -> wt DOut v (f_type f) -> ty_wf (f_type f) ->
  f_index f <= max_index -> lenN (field_bytes f v) < two64 ->
  let a := ts_atlas true v (f_type f) in
  ts_header_size (f_index f) (jlookup a) (integer_encoded (f_type f)) + jlookup a
    = lenN (field_bytes f v) /\
  emits (jthen (jheader (f_index f) (jlookup a) (integer_encoded (f_type f)))
               (ts_ser true v (f_type f) a)) (field_bytes f (js_val v)).
Proof.
  intros Hg Hw Hwf Hi Hl a. unfold field_bytes in *. rewrite lenN_app in *.
  destruct (Hg (f_type f) true Hw Hwf ltac:(lia)) as (H1 & H2). subst a. rewrite H1. split.
  - rewrite ts_header_size_eq, header_size_spec' by exact Hi. reflexivity.
  - apply emits_then; [|exact H2]. rewrite js_val_len. apply emits_header; [exact Hi|lia].
Qed.

Lemma js_fields_good fs : forall ovs, Forall (optP js_good) ovs ->
  all2P (fun ov f => match ov with
                     | Some v => wt DOut v (f_type f)
                     | None => always_present DOut (f_rule f) = false
                     end) ovs fs ->
  Forall (fun f => f_index f <= max_index /\ ty_wf (f_type f)) fs ->
  lenN (concat (map2 opt_field_bytes ovs fs)) < two64 ->
  let atlases := map2 (fun ov f => match ov with
                         | Some v => Some (ts_atlas true v (f_type f))
                         | None => None
                         end) ovs fs in
  fold_left N.add
    (map2 (fun f oa => match oa with
       | Some a => ts_header_size (f_index f) (jlookup a) (integer_encoded (f_type f)) + jlookup a
       | None => 0
       end) fs atlases) 0 = lenN (concat (map2 opt_field_bytes ovs fs)) /\
  emits (jseq (map2 (fun ov fa => match ov, snd fa with
            | Some v, Some pa =>
                jthen (jheader (f_index (fst fa)) (jlookup pa) (integer_encoded (f_type (fst fa))))
                      (ts_ser true v (f_type (fst fa)) pa)
            | _, _ => jskip
            end) ovs (combine fs atlases)))
    (concat (map2 opt_field_bytes
       (map (fun ov => match ov with Some v => Some (js_val v) | None => None end) ovs) fs)).
Proof.
  induction fs as [|f fs IHf]; intros [|ov ovs] Hg Hw Hwf Hl; try contradiction.
  - split; [reflexivity|exact emits_skip].
  - inversion Hg as [|? ? Hg1 Hg2]; inversion Hwf as [|? ? [Hi Hwf1] Hwf2]; subst.
    destruct Hw as [Hw1 Hw2]. cbn [map2 concat] in Hl. rewrite lenN_app in Hl.
    destruct (IHf ovs Hg2 Hw2 Hwf2 ltac:(lia)) as (I1 & I2).
    cbv zeta. cbn [map map2 concat combine jseq fold_right fst snd fold_left].
    rewrite fold_left_add, I1, lenN_app.
    destruct ov as [v|]; cbn [opt_field_bytes] in *.
    + destruct (js_field_good v f Hg1 Hw1 Hwf1 Hi ltac:(lia)) as (J1 & J2). split; [lia|].
      apply emits_then; [exact J2|exact I2].
    + split; [reflexivity|]. apply (emits_then _ _ [] _ emits_skip). exact I2.
Qed.

Lemma js_spec : forall v, js_good v.
Proof.
  induction v as [|b|n|z|b|bs|s|n|vs IH|ovs IH|i p fb IHp IHfb] using val_ind';
    intros t isf Hw Hwf Hl.
  - destruct t; try contradiction. split; [reflexivity|exact emits_skip].
  - destruct t; try contradiction. cbn [ts_atlas spec_encode ts_ser jlookup js_val] in *.
    rewrite js_bits_zero.
    destruct isf; cbn [andb]; [destruct (b =? 0)|]; cbn [negb]; rewrite ?lenN_le_bytes;
      (split; [reflexivity|]); [exact emits_skip|exact (emits_put _)|exact (emits_put _)].
  - destruct t; try contradiction. cbn [wt ts_atlas spec_encode ts_ser jlookup js_val] in *.
    split; [now apply ts_atlas_u64_eq|now apply emits_u64].
  - destruct t; try contradiction. cbn [wt ts_atlas spec_encode ts_ser jlookup js_val] in *.
    rewrite ts_zz by exact Hw. pose proof (zigzag_encode_lt z Hw) as Hz.
    rewrite zigzag_encode_spec in Hz by exact Hw.
    split; [now apply ts_atlas_u64_eq|now apply emits_u64].
  - destruct t; try contradiction. cbn [wt ts_atlas spec_encode ts_ser jlookup js_val] in *.
    split; [destruct isf, b; reflexivity|apply emits_u64; now destruct b].
  - destruct t; try contradiction. split; [reflexivity|exact (emits_put _)].
  - destruct t; try contradiction. split; [reflexivity|exact (emits_put _)].
  - destruct t as [| | | | | | |t| |]; try contradiction. destruct t; try contradiction.
    cbn [wt] in Hw. split; [now apply ts_atlas_u64_eq|now apply emits_u64].
  - destruct t as [| | | | | | |e| |]; try contradiction. cbn [wt] in Hw. destruct Hw as [Hu Hw].
    apply allP_Forall in Hw. cbn [ty_wf] in Hwf.
    destruct (sized_element e) eqn:Hs.
    + destruct (js_array_sized e vs) as (I1 & I2); [exact IH|exact Hw|exact Hwf| |].
      { destruct e; try discriminate Hs; exact Hl. }
      specialize (I1 0). rewrite N.add_0_l in I1.
      destruct e; try discriminate Hs; (split; [exact I1|exact I2]).
    + assert (forall a, (forall v a, ts_ser false v e a = ts_ser false v e (ts_atlas false v e)) ->
        fold_left (fun x v => x + jlookup (ts_atlas false v e)) vs 0
          = lenN (flat_map (fun v => spec_encode false v e) vs) /\
        emits (jseq (map (fun v => ts_ser false v e a) vs))
              (flat_map (fun v => spec_encode false v e) (map js_val vs))) as Hsm.
      { intros a Hig. destruct (js_array_small e vs a IH Hw Hwf Hig) as (I1 & I2);
          [destruct e; try discriminate Hs; try discriminate Hu; exact Hl|].
        specialize (I1 0). rewrite N.add_0_l in I1. auto. }
      destruct e; try discriminate Hu; try discriminate Hs;
        try (apply Hsm; intros [] []; reflexivity).
      split.
      * destruct (array_f64 vs (ASize 0) Hw) as (I1 & _). exact I1.
      * apply Hsm. intros [] []; reflexivity.
  - destruct t as [| | | | | | | |fs|]; try contradiction.
    cbn [wt] in Hw. cbn [ty_wf] in Hwf. destruct Hwf as [Hnd Hwf]. apply allP_Forall in Hwf.
    exact (js_fields_good fs ovs IH Hw Hwf Hl).
  - destruct t as [| | | | | | | | |fs]; try contradiction.
    pose proof Hwf as Hwf0. cbn [ty_wf] in Hwf. destruct Hwf as [Hnd Hwf]. apply allP_Forall in Hwf.
    cbn [wt] in Hw. cbn [js_val]. cbn [ts_atlas ts_ser spec_encode] in *.
    destruct (find_field i fs) as [f|] eqn:Ef; [|contradiction].
    pose proof (find_field_in _ _ _ Ef) as [Hin Hidx]. rewrite Forall_forall in Hwf.
    destruct (Hwf f Hin) as [Hi Hwf1]. destruct Hw as [Hw1 Hw2].
    rewrite !app_assoc in *. fold (field_bytes f p) (field_bytes f (js_val p)) in *.
    rewrite lenN_app in Hl.
    destruct (js_field_good p f IHp Hw1 Hwf1 Hi ltac:(lia)) as (J1 & J2).
    destruct fb as [v'|].
    + destruct Hw2 as [Hhf Hw2].
      destruct (IHfb (TChoice fs) true Hw2 Hwf0 ltac:(lia)) as (K1 & K2).
      destruct (f_rule f); try discriminate Hhf; cbv zeta;
        rewrite N.eqb_refl; cbn [jlookup]; rewrite J1, K1, lenN_app;
        (split; [reflexivity|]); (apply emits_then; [exact J2|exact K2]).
    + destruct (f_rule f); try discriminate Hw2. cbv zeta.
      rewrite N.eqb_refl. cbn [jlookup]. rewrite J1, !app_nil_r. split; [reflexivity|].
      rewrite <- (app_nil_r (field_bytes f (js_val p))). apply emits_then; [exact J2|exact emits_skip].
Qed.

(** A buffer of the right size is overwritten completely. *)
Lemma emits_whole w bs n : emits w bs -> n = lenN bs ->
  w (repeat 0 (N.to_nat n)) 0 = JOk (bs, n).
Proof.
  intros H ->. rewrite H.
  - rewrite takeN_0, N.add_0_l, dropN_all, app_nil_r; [reflexivity|].
    unfold lenN. rewrite repeat_length. lia.
  - unfold lenN. rewrite repeat_length. lia.
Qed.

Lemma ts_serialize_spec v t : wt DOut v t -> ty_wf t -> lenN (spec_encode true v t) < two64 ->
  ts_serialize_full v t = JOk (spec_encode true (js_val v) t, lenN (spec_encode true v t)).
Proof.
  intros Hw Hwf Hl. destruct (js_spec v t true Hw Hwf Hl) as (H1 & H2).
  unfold ts_serialize_full. cbv zeta. rewrite H1. apply emits_whole; [exact H2|].
  symmetry. apply js_val_len.
Qed.
