(** The generated serializer writes exactly the documented format, and the atlas is exact. *)
From Verif Require Export DecodeFacts Spec.

Lemma spec_u64_ok isf n : n < two64 -> bytes_ok (spec_u64 isf n).
Proof.
  intros Hn. unfold spec_u64. destruct isf; [|now apply spec_varint_ok].
  destruct (n =? 0); [constructor|]. destruct (n <? _); [now apply spec_varint_ok|apply le_bytes_ok].
Qed.
Lemma ser_u64_spec isf n : n < two64 -> ser_u64 isf n = spec_u64 isf n.
Proof.
  intros Hn. unfold ser_u64, spec_u64. destruct isf; [|now apply serialize_varint_spec].
  destruct (n =? 0); [reflexivity|].
  replace (n <=? 567382630219903) with (n <? 567382630219904) by lia.
  destruct (n <? _); [now apply serialize_varint_spec|reflexivity].
Qed.
Lemma atlas_u64_spec isf n : n < two64 -> atlas_u64 isf n = lenN (spec_u64 isf n).
Proof.
  intros Hn. unfold atlas_u64, spec_u64. destruct isf; [|now rewrite spec_varint_length].
  destruct (n =? 0); [reflexivity|].
  replace (n <=? 567382630219903) with (n <? 567382630219904) by lia.
  destruct (n <? _); [now rewrite spec_varint_length|now rewrite lenN_le_bytes].
Qed.

Lemma app_opt_some a b : app_opt (Some a) (Some b) = Some (a ++ b).
Proof. cbn. now rewrite app_nil_r. Qed.

Definition ser_good (v : val) : Prop := forall t isf, wt DOut v t -> ty_wf t ->
  lenN (spec_encode isf v t) < two64 ->
  atlas_lookup (calc_atlas isf v t) = lenN (spec_encode isf v t) /\
  ser isf v t (calc_atlas isf v t) = Some (spec_encode isf v t) /\
  bytes_ok (spec_encode isf v t).

(** Arrays of integers. *)
Lemma array_small e vs a :
  Forall ser_good vs -> Forall (fun v => wt DOut v e) vs -> ty_wf e ->
  (forall v a, ser false v e a = ser false v e (calc_atlas false v e)) ->
  lenN (flat_map (fun v => spec_encode false v e) vs) < two64 ->
  (forall x, fold_left (fun x v => x + atlas_lookup (calc_atlas false v e)) vs x
             = x + lenN (flat_map (fun v => spec_encode false v e) vs)) /\
  cat_opt (map (fun v => ser false v e a) vs) = Some (flat_map (fun v => spec_encode false v e) vs)
  /\ bytes_ok (flat_map (fun v => spec_encode false v e) vs).
Proof.
  intros Hg Hw Hwf Hig. induction vs as [|v vs IH]; intros Hl.
  - split; [|split]; [|reflexivity|constructor].
    intros x. cbn [fold_left flat_map map]. rewrite lenN_nil. lia.
  - inversion Hg; inversion Hw; subst. cbn [flat_map] in *. rewrite lenN_app in Hl.
    destruct (IH ltac:(assumption) ltac:(assumption) ltac:(lia)) as (I1 & I2 & I3).
    destruct (H1 e false) as (J1 & J2 & J3); [assumption|assumption|lia|].
    repeat split.
    + intros x. cbn [fold_left]. rewrite I1, J1, lenN_app. lia.
    + cbn [map cat_opt]. rewrite (Hig v a), J2, I2. reflexivity.
    + apply bytes_ok_app. auto.
Qed.

Lemma array_int e isf vs :
  Forall ser_good vs -> Forall (fun v => wt DOut v e) vs -> ty_wf e ->
  (forall v a, ser false v e a = ser false v e (calc_atlas false v e)) ->
  lenN (spec_encode isf (VArr vs) (TArray e)) < two64 ->
  calc_atlas isf (VArr vs) (TArray e) =
    ASize (fold_left (fun x v => x + atlas_lookup (calc_atlas false v e)) vs 0) ->
  (forall a, ser isf (VArr vs) (TArray e) a = cat_opt (map (fun v => ser false v e a) vs)) ->
  spec_encode isf (VArr vs) (TArray e) = flat_map (fun v => spec_encode false v e) vs ->
  atlas_lookup (calc_atlas isf (VArr vs) (TArray e)) = lenN (spec_encode isf (VArr vs) (TArray e)) /\
  ser isf (VArr vs) (TArray e) (calc_atlas isf (VArr vs) (TArray e))
    = Some (spec_encode isf (VArr vs) (TArray e)) /\
  bytes_ok (spec_encode isf (VArr vs) (TArray e)).
Proof.
  intros Hg Hw Hwf Hig Hl E1 E2 E3. rewrite E3 in *. rewrite E2.
  destruct (array_small e vs (calc_atlas isf (VArr vs) (TArray e)) Hg Hw Hwf Hig Hl)
    as (I1 & I2 & I3).
  repeat split; auto. rewrite E1. cbn [atlas_lookup]. rewrite I1. lia.
Qed.

Lemma array_f64 vs a :
  Forall (fun v => wt DOut v TF64) vs ->
  8 * lenN vs = lenN (flat_map (fun v => spec_encode false v TF64) vs) /\
  cat_opt (map (fun v => ser false v TF64 a) vs)
    = Some (flat_map (fun v => spec_encode false v TF64) vs) /\
  bytes_ok (flat_map (fun v => spec_encode false v TF64) vs).
Proof.
  induction vs as [|v vs IH]; intros Hw.
  - repeat split; constructor.
  - inversion Hw; subst. destruct (IH ltac:(assumption)) as (I1 & I2 & I3).
    destruct v; simpl in H1; try contradiction. cbn [flat_map].
    cbn [spec_encode andb]. rewrite lenN_cons, lenN_app, lenN_le_bytes.
    repeat split; [lia| |apply bytes_ok_app; split; [apply le_bytes_ok|exact I3]].
    cbn [map cat_opt ser]. rewrite I2. reflexivity.
Qed.

(** Arrays of sized elements. *)
Definition sized_bytes (e : ty) (v : val) : bytes :=
  spec_varint (lenN (spec_encode false v e)) ++ spec_encode false v e.

Lemma array_sized e vs :
  Forall ser_good vs -> Forall (fun v => wt DOut v e) vs -> ty_wf e ->
  lenN (flat_map (sized_bytes e) vs) < two64 ->
  (forall x, fold_left (fun x a => x + varint_size_from_value (atlas_lookup a) + atlas_lookup a)
               (map (fun v => calc_atlas false v e) vs) x
             = x + lenN (flat_map (sized_bytes e) vs)) /\
  cat_opt (map2 (fun v pa => app_opt (Some (serialize_varint (atlas_lookup pa))) (ser false v e pa))
             vs (map (fun v => calc_atlas false v e) vs))
    = Some (flat_map (sized_bytes e) vs) /\
  bytes_ok (flat_map (sized_bytes e) vs).
Proof.
  intros Hg Hw Hwf. induction vs as [|v vs IH]; intros Hl.
  - split; [|split]; [|reflexivity|constructor].
    intros x. cbn [fold_left flat_map map]. rewrite lenN_nil. lia.
  - inversion Hg; inversion Hw; subst. cbn [flat_map] in *. rewrite lenN_app in Hl.
    unfold sized_bytes at 1 in Hl. rewrite lenN_app in Hl.
    destruct (IH ltac:(assumption) ltac:(assumption) ltac:(lia)) as (I1 & I2 & I3).
    destruct (H1 e false) as (J1 & J2 & J3); [assumption|assumption|lia|].
    assert (lenN (spec_encode false v e) < two64) as Hv by lia.
    repeat split.
    + intros x. cbn [fold_left map]. rewrite I1, J1. unfold sized_bytes at 2.
      rewrite !lenN_app, spec_varint_length by exact Hv. lia.
    + cbn [map map2]. rewrite J1, J2, app_opt_some. cbn [cat_opt].
      rewrite I2. unfold sized_bytes at 2.
      rewrite serialize_varint_spec by exact Hv. reflexivity.
    + unfold sized_bytes at 1. repeat (apply bytes_ok_app; split); auto using spec_varint_ok.
Qed.

(** Fields. *)
Definition field_bytes (f : field_of ty) (v : val) : bytes :=
  spec_header (f_index f) (lenN (spec_encode true v (f_type f))) (integer_encoded (f_type f))
  ++ spec_encode true v (f_type f).
Definition opt_field_bytes (ov : option val) (f : field_of ty) : bytes :=
  match ov with Some v => field_bytes f v | None => [] end.

Lemma fold_left_add l : forall x, fold_left N.add l x = x + fold_left N.add l 0.
Proof.
  induction l as [|y l IH]; intros x; cbn [fold_left]; [lia|]. rewrite IH, (IH (0 + y)). lia.
Qed.

Lemma field_good v f : ser_good v -> wt DOut v (f_type f) -> ty_wf (f_type f) ->
  f_index f <= max_index -> lenN (field_bytes f v) < two64 ->
  let a := calc_atlas true v (f_type f) in
  atlas_lookup a = lenN (spec_encode true v (f_type f)) /\
  field_header_size (f_index f) (atlas_lookup a) (integer_encoded (f_type f)) + atlas_lookup a
    = lenN (field_bytes f v) /\
  app_opt (Some (serialize_field_header (f_index f) (atlas_lookup a) (integer_encoded (f_type f))))
          (ser true v (f_type f) a) = Some (field_bytes f v) /\
  bytes_ok (field_bytes f v).
Proof.
  intros Hg Hw Hwf Hi Hl a. unfold field_bytes in *. rewrite lenN_app in Hl.
  destruct (Hg (f_type f) true Hw Hwf ltac:(lia)) as (J1 & J2 & J3).
  subst a. rewrite J1, J2.
  assert (lenN (spec_encode true v (f_type f)) < two64) as Hv by lia.
  repeat split.
  - rewrite header_size_spec, serialize_header_spec, lenN_app by assumption. reflexivity.
  - rewrite app_opt_some, serialize_header_spec by assumption. reflexivity.
  - apply bytes_ok_app; auto using spec_header_ok.
Qed.

Lemma fields_good : forall fs ovs,
  Forall (optP ser_good) ovs ->
  all2P (fun ov f => match ov with Some v => wt DOut v (f_type f)
                                 | None => always_present DOut (f_rule f) = false end) ovs fs ->
  Forall (fun f => f_index f <= max_index /\ ty_wf (f_type f)) fs ->
  lenN (concat (map2 opt_field_bytes ovs fs)) < two64 ->
  let atlases := map2 (fun ov f => match ov with
                             | Some v => Some (calc_atlas true v (f_type f))
                             | None => None end) ovs fs in
  fold_left N.add (map2 (fun f oa => match oa with
           | Some a => field_header_size (f_index f) (atlas_lookup a) (integer_encoded (f_type f))
                       + atlas_lookup a
           | None => 0 end) fs atlases) 0 = lenN (concat (map2 opt_field_bytes ovs fs)) /\
  cat_opt (map2 (fun ov fa => match ov, snd fa with
            | Some v, Some pa =>
                app_opt (Some (serialize_field_header (f_index (fst fa)) (atlas_lookup pa)
                                 (integer_encoded (f_type (fst fa)))))
                        (ser true v (f_type (fst fa)) pa)
            | _, _ => Some []
            end) ovs (combine fs atlases)) = Some (concat (map2 opt_field_bytes ovs fs)) /\
  bytes_ok (concat (map2 opt_field_bytes ovs fs)).
Proof.
  induction fs as [|f fs IH]; intros ovs Hg Hw Hwf Hl atlases; subst atlases.
  - destruct ovs; [|contradiction]. repeat split; constructor.
  - destruct ovs as [|ov ovs]; [contradiction|].
    inversion Hg as [|? ? Hg1 Hg2]; inversion Hwf as [|? ? [Hi Hwf1] Hwf2]; subst.
    destruct Hw as [Hw1 Hw2]. cbn [map2 concat] in *. rewrite lenN_app in Hl.
    destruct (IH ovs Hg2 Hw2 Hwf2 ltac:(lia)) as (I1 & I2 & I3).
    cbn [combine fst snd].
    destruct ov as [v|]; cbn [opt_field_bytes] in *.
    + destruct (field_good v f Hg1 Hw1 Hwf1 Hi ltac:(lia)) as (J1 & J2 & J3 & J4).
      repeat split.
      * cbn [fold_left]. rewrite fold_left_add, I1, J2, lenN_app. lia.
      * rewrite J3. cbn [cat_opt]. rewrite I2. reflexivity.
      * apply bytes_ok_app; auto.
    + repeat split.
      * cbn [fold_left app]. rewrite fold_left_add, I1. lia.
      * cbn [cat_opt fst snd]. rewrite I2. reflexivity.
      * exact I3.
Qed.

Lemma ser_spec : forall v, ser_good v.
Proof.
  induction v as [|b|n|z|b|bs|s|n|vs IH|ovs IH|i p fb IHp IHfb] using val_ind';
    intros t isf Hw Hwf Hl.
  - destruct t; try contradiction. repeat split; constructor.
  - destruct t; try contradiction. cbn [calc_atlas spec_encode ser atlas_lookup] in *.
    destruct isf; cbn [andb negb]; [destruct (b =? 0)|]; cbn [negb]; rewrite ?lenN_le_bytes;
      (split; [|split]); try reflexivity; try apply le_bytes_ok. constructor.
  - destruct t; try contradiction. cbn [wt calc_atlas spec_encode ser atlas_lookup] in *.
    rewrite ser_u64_spec, atlas_u64_spec by assumption. repeat split; auto using spec_u64_ok.
  - destruct t; try contradiction. cbn [wt calc_atlas spec_encode ser atlas_lookup] in *.
    pose proof (zigzag_encode_lt z Hw) as Hz. rewrite <- zigzag_encode_spec in * by assumption.
    rewrite ser_u64_spec, atlas_u64_spec by assumption. repeat split; auto using spec_u64_ok.
  - destruct t; try contradiction. cbn [wt calc_atlas spec_encode ser atlas_lookup] in *.
    destruct isf, b; cbn; (split; [|split]); try reflexivity; repeat constructor.
  - destruct t; try contradiction. cbn [wt calc_atlas spec_encode ser atlas_lookup] in *. repeat split; auto.
  - destruct t; try contradiction. cbn [wt calc_atlas spec_encode ser atlas_lookup] in *. repeat split; auto using utf8_encode_ok.
  - destruct t as [| | | | | | |t| |]; try contradiction. destruct t; try contradiction. cbn [wt calc_atlas spec_encode ser atlas_lookup] in *.
    rewrite ser_u64_spec, atlas_u64_spec by assumption. repeat split; auto using spec_u64_ok.
  - destruct t as [| | | | | | |e| |]; try contradiction. cbn [wt] in Hw. destruct Hw as [Hu Hw].
    apply allP_Forall in Hw. cbn [ty_wf] in Hwf.
    destruct (sized_element e) eqn:Hs.
    + destruct (array_sized e vs) as (I1 & I2 & I3); [exact IH|exact Hw|exact Hwf| |].
      { destruct e; try discriminate Hs; exact Hl. }
      specialize (I1 0). rewrite N.add_0_l in I1.
      destruct e; try discriminate Hs;
        (split; [exact I1|split; [exact I2|exact I3]]).
    + destruct e; try discriminate Hu; try discriminate Hs.
      * destruct (array_f64 vs (ASize (8 * lenN vs)) Hw) as (I1 & I2 & I3). auto.
      * eapply array_int; eauto. intros v a; destruct v; reflexivity. all: reflexivity.
      * eapply array_int; eauto. intros v a; destruct v; reflexivity. all: reflexivity.
      * eapply array_int; eauto. intros v a; destruct v; reflexivity. all: reflexivity.
  - destruct t as [| | | | | | | |fs|]; try contradiction.
    cbn [wt] in Hw. cbn [ty_wf] in Hwf. destruct Hwf as [Hnd Hwf]. apply allP_Forall in Hwf.
    exact (fields_good fs ovs IH Hw Hwf Hl).
  - destruct t as [| | | | | | | | |fs]; try contradiction.
    pose proof Hwf as Hwf0. cbn [ty_wf] in Hwf. destruct Hwf as [Hnd Hwf]. apply allP_Forall in Hwf.
    cbn [wt] in Hw. cbn [calc_atlas ser spec_encode] in *.
    destruct (find_field i fs) as [f|] eqn:Ef; [|contradiction].
    pose proof (find_field_in _ _ _ Ef) as [Hin Hidx]. rewrite Forall_forall in Hwf.
    destruct (Hwf f Hin) as [Hi Hwf1]. destruct Hw as [Hw1 Hw2].
    rewrite app_assoc in *. fold (field_bytes f p) in *. rewrite lenN_app in Hl.
    destruct (field_good p f IHp Hw1 Hwf1 Hi ltac:(lia)) as (J1 & J2 & J3 & J4).
    destruct fb as [v'|].
    + destruct Hw2 as [Hhf Hw2].
      destruct (IHfb (TChoice fs) true Hw2 Hwf0 ltac:(lia)) as (K1 & K2 & K3).
      destruct (f_rule f); try discriminate Hhf; cbv zeta;
        rewrite N.eqb_refl, J3, K2, app_opt_some; cbn [atlas_lookup];
        rewrite J2, K1, lenN_app; repeat split; apply bytes_ok_app; auto.
    + destruct (f_rule f); try discriminate Hw2. cbv zeta.
      rewrite N.eqb_refl, J3, app_opt_some. cbn [atlas_lookup].
      rewrite J2, app_nil_r. auto.
Qed.

Lemma spec_encode_ok v t isf : wt DOut v t -> ty_wf t ->
  lenN (spec_encode isf v t) < two64 -> bytes_ok (spec_encode isf v t).
Proof. intros Hw Hwf Hl. now destruct (ser_spec v t isf Hw Hwf Hl) as (_ & _ & ?). Qed.

(** ** The atlas is exact without any bound on the size *)
Lemma spec_varint_length' n : lenN (spec_varint n) = varint_size_from_value n.
Proof.
  destruct (n <? two64) eqn:E; [apply spec_varint_length; lia|]. unfold two64 in E.
  unfold spec_varint, varint_size_from_value.
  repeat match goal with |- context [if ?c then _ else _] => replace c with false by lia end.
  rewrite lenN_cons, lenN_le_bytes. reflexivity.
Qed.
Lemma header_size_spec' i size ie : i <= max_index ->
  field_header_size i size ie = lenN (spec_header i size ie).
Proof.
  intros Hi. unfold field_header_size, spec_header.
  rewrite !tag_eq by (try exact Hi; lia). rewrite N.add_0_r.
  destruct (size =? 0); [now rewrite spec_varint_length'|].
  destruct (size =? 8); [now rewrite spec_varint_length'|].
  destruct ie; [now rewrite spec_varint_length'|].
  now rewrite lenN_app, !spec_varint_length'.
Qed.

Definition size_good (v : val) : Prop := forall t isf, wt DOut v t -> ty_wf t ->
  atlas_lookup (calc_atlas isf v t) = lenN (spec_encode isf v t).

Lemma field_size_good v f : size_good v -> wt DOut v (f_type f) -> ty_wf (f_type f) ->
  f_index f <= max_index ->
  let a := calc_atlas true v (f_type f) in
  field_header_size (f_index f) (atlas_lookup a) (integer_encoded (f_type f)) + atlas_lookup a
    = lenN (field_bytes f v).
Proof.
  intros Hg Hw Hwf Hi a. subst a. rewrite (Hg (f_type f) true Hw Hwf).
  unfold field_bytes. rewrite lenN_app, header_size_spec' by exact Hi. reflexivity.
Qed.

Lemma size_spec : forall v, size_good v.
Proof.
  induction v as [|b|n|z|b|bs|s|n|vs IH|ovs IH|i p fb IHp IHfb] using val_ind'; intros t isf Hw Hwf.
  - destruct t; try contradiction. reflexivity.
  - destruct t; try contradiction. cbn [calc_atlas spec_encode atlas_lookup].
    destruct isf; cbn [andb]; [destruct (b =? 0)|]; now rewrite ?lenN_le_bytes.
  - destruct t; try contradiction. now apply atlas_u64_spec.
  - destruct t; try contradiction. cbn [calc_atlas spec_encode atlas_lookup wt] in *.
    rewrite <- zigzag_encode_spec by exact Hw. now apply atlas_u64_spec, zigzag_encode_lt.
  - destruct t; try contradiction. destruct isf, b; reflexivity.
  - destruct t; try contradiction. reflexivity.
  - destruct t; try contradiction. reflexivity.
  - destruct t as [| | | | | | |t| |]; try contradiction. destruct t; try contradiction.
    now apply atlas_u64_spec.
  - destruct t as [| | | | | | |e| |]; try contradiction. cbn [wt] in Hw. destruct Hw as [Hu Hw].
    apply allP_Forall in Hw. cbn [ty_wf] in Hwf.
    assert (forall vs, Forall size_good vs -> Forall (fun v => wt DOut v e) vs -> forall x,
      fold_left (fun x v => x + atlas_lookup (calc_atlas false v e)) vs x
      = x + lenN (flat_map (fun v => spec_encode false v e) vs)) as Hsmall.
    { clear - Hwf. induction vs as [|v vs IHv]; intros Hg Hw x; cbn [fold_left flat_map];
        [rewrite lenN_nil; lia|]. inversion Hg; inversion Hw; subst.
      rewrite IHv, lenN_app by assumption. rewrite (H1 e false) by assumption. lia. }
    assert (forall vs, Forall size_good vs -> Forall (fun v => wt DOut v e) vs -> forall x,
      fold_left (fun x a => x + varint_size_from_value (atlas_lookup a) + atlas_lookup a)
               (map (fun v => calc_atlas false v e) vs) x
             = x + lenN (flat_map (sized_bytes e) vs)) as Hsized.
    { clear - Hwf. induction vs as [|v vs IHv]; intros Hg Hw x; cbn [fold_left flat_map map];
        [rewrite lenN_nil; lia|]. inversion Hg; inversion Hw; subst.
      rewrite IHv, lenN_app by assumption. rewrite (H1 e false) by assumption.
      unfold sized_bytes at 2. rewrite lenN_app, spec_varint_length'. lia. }
    specialize (Hsmall vs IH Hw 0). specialize (Hsized vs IH Hw 0). rewrite N.add_0_l in *.
    destruct e; try discriminate Hu; try exact Hsmall; try exact Hsized.
    now destruct (array_f64 vs (ASize (8 * lenN vs)) Hw) as (I1 & _).
  - destruct t as [| | | | | | | |fs|]; try contradiction.
    cbn [wt] in Hw. cbn [ty_wf] in Hwf. destruct Hwf as [Hnd Hwf]. apply allP_Forall in Hwf.
    clear Hnd. cbn [calc_atlas atlas_lookup].
    change (spec_encode isf (VStruct ovs) (TStruct fs)) with (concat (map2 opt_field_bytes ovs fs)).
    revert ovs IH Hw. induction fs as [|f fs IHf]; intros [|ov ovs] IH Hw; try contradiction;
      [reflexivity|].
    inversion IH as [|? ? IH1 IH2]; inversion Hwf as [|? ? [Hi Hwf1] Hwf2]; subst.
    destruct Hw as [Hw1 Hw2]. cbn [map2 concat fold_left]. rewrite fold_left_add, IHf by assumption.
    rewrite lenN_app. destruct ov as [v|]; cbn [opt_field_bytes].
    + rewrite (field_size_good v f) by assumption. lia.
    + reflexivity.
  - destruct t as [| | | | | | | | |fs]; try contradiction.
    pose proof Hwf as Hwf0. cbn [ty_wf] in Hwf. destruct Hwf as [Hnd Hwf]. apply allP_Forall in Hwf.
    cbn [wt] in Hw. cbn [calc_atlas spec_encode] in *.
    destruct (find_field i fs) as [f|] eqn:Ef; [|contradiction].
    pose proof (find_field_in _ _ _ Ef) as [Hin Hidx]. rewrite Forall_forall in Hwf.
    destruct (Hwf f Hin) as [Hi Hwf1]. destruct Hw as [Hw1 Hw2].
    rewrite app_assoc in *. fold (field_bytes f p) in *. rewrite lenN_app.
    pose proof (field_size_good p f IHp Hw1 Hwf1 Hi) as J. cbv zeta in J.
    destruct fb as [v'|].
    + destruct Hw2 as [Hhf Hw2].
      pose proof (IHfb (TChoice fs) true Hw2 Hwf0) as K.
      destruct (f_rule f); try discriminate Hhf; cbv zeta; cbn [atlas_lookup]; rewrite J, K; reflexivity.
    + destruct (f_rule f); try discriminate Hw2. cbv zeta. cbn [atlas_lookup].
      rewrite J, lenN_nil. lia.
Qed.

Lemma size_exact v t : wt DOut v t -> ty_wf t -> size v t = lenN (spec_encode true v t).
Proof. intros. now apply size_spec. Qed.
