(** Reading with type [b] what was written with type [a]. *)
From Verif Require Export SerializeFacts Evolution.

(** ** The relations *)
Lemma always_present_required f g :
  rule_change_safe (f_rule f) (f_rule g) = true -> f_rule (T := ty) g = Required ->
  always_present DOut (f_rule (T := ty) f) = true.
Proof. intros H Hg. rewrite Hg in H. destruct (f_rule f); easy. Qed.

Lemma nodup_eq {T} (fs : list (field_of T)) f f' :
  NoDup (indices fs) -> In f fs -> In f' fs -> f_index f = f_index f' -> f = f'.
Proof.
  intros Hn H1 H2 E. pose proof (find_field_nodup fs f Hn H1) as A.
  pose proof (find_field_nodup fs f' Hn H2) as B. rewrite E in A. congruence.
Qed.

Lemma safe_sym : forall a b, ty_wf a -> ty_wf b -> safe a b -> safe b a.
Proof.
  assert (forall fs gs,
    NoDup (indices fs) -> allP (fun f => f_index f <= max_index /\ ty_wf (f_type f)) fs ->
    NoDup (indices gs) -> allP (fun f => f_index f <= max_index /\ ty_wf (f_type f)) gs ->
    Forall (fun f => forall b, ty_wf (f_type f) -> ty_wf b -> safe (f_type f) b ->
              safe b (f_type f)) fs ->
    allP (fun f => match find_field (f_index f) gs with
                   | Some g => rule_change_safe (f_rule f) (f_rule g) = true /\
                               safe (f_type f) (f_type g)
                   | None => required (f_rule f) = false
                   end) fs /\
    allP (fun g => match find_field (f_index g) fs with
                   | Some _ => True | None => required (f_rule g) = false end) gs ->
    allP (fun f => match find_field (f_index f) fs with
                   | Some g => rule_change_safe (f_rule f) (f_rule g) = true /\
                               safe (f_type f) (f_type g)
                   | None => required (f_rule f) = false
                   end) gs /\
    allP (fun g => match find_field (f_index g) gs with
                   | Some _ => True | None => required (f_rule g) = false end) fs) as Hfields.
  { intros fs gs Hnf Hwf Hng Hwg IH [H1 H2].
    rewrite !allP_Forall, !Forall_forall in *. split.
    - intros g Hg. specialize (H2 g Hg).
      destruct (find_field (f_index g) fs) as [f|] eqn:E; [|exact H2].
      apply find_field_in in E as [Hf Ei].
      specialize (H1 f Hf). rewrite Ei in H1.
      rewrite (find_field_nodup gs g Hng Hg) in H1. destruct H1 as [Hr Hs].
      split; [destruct (f_rule f), (f_rule g); easy|].
      apply (IH f Hf); auto. now apply Hwf. now apply Hwg.
    - intros f Hf. specialize (H1 f Hf).
      destruct (find_field (f_index f) gs); easy. }
  induction a as [| | | | | | |a IH|fs IH|fs IH] using ty_ind'; intros b Ha Hb Hs;
    try (destruct b; easy).
  - destruct b; try easy. now apply IH.
  - destruct b as [| | | | | | | |gs|gs]; try (destruct fs as [|? [|]]; easy).
    + simpl in Ha, Hb, Hs |- *. apply Hfields; tauto.
    + destruct fs as [|f [|]]; try easy. destruct gs as [|g [|]]; try easy.
      simpl in Hs. destruct Hs as (E & R1 & R2 & Hs). simpl.
      repeat split; auto. apply (Forall_inv IH); [apply Ha|apply Hb|exact Hs].
  - destruct b as [| | | | | | | |gs|gs]; try (destruct fs as [|? [|]]; easy).
    + destruct fs as [|f [|]]; try easy. destruct gs as [|g [|]]; try easy.
      simpl in Hs. destruct Hs as (E & R1 & R2 & Hs). simpl.
      repeat split; auto. apply (Forall_inv IH); [apply Ha|apply Hb|exact Hs].
    + simpl in Ha, Hb, Hs |- *. apply Hfields; tauto.
Qed.

Lemma safe_refl : forall a, ty_wf a -> safe a a.
Proof.
  assert (forall fs,
    NoDup (indices fs) -> allP (fun f => f_index f <= max_index /\ ty_wf (f_type f)) fs ->
    Forall (fun f => ty_wf (f_type f) -> safe (f_type f) (f_type f)) fs ->
    allP (fun f => match find_field (f_index f) fs with
                   | Some g => rule_change_safe (f_rule f) (f_rule g) = true /\
                               safe (f_type f) (f_type g)
                   | None => required (f_rule f) = false
                   end) fs /\
    allP (fun g => match find_field (f_index g) fs with
                   | Some _ => True | None => required (f_rule g) = false end) fs) as Hfields.
  { intros fs Hn Hwf IH. rewrite !allP_Forall, !Forall_forall in *.
    split; intros f Hf; rewrite (find_field_nodup fs f Hn Hf); [|exact I].
    split; [destruct (f_rule f); reflexivity|]. apply IH; [exact Hf|]. now apply Hwf. }
  induction a as [| | | | | | |a IH|fs IH|fs IH] using ty_ind'; intros Ha; simpl; auto.
  - apply Hfields; try apply Ha. exact IH.
  - apply Hfields; try apply Ha. exact IH.
Qed.

Lemma safe_compat : forall a b, ty_wf a -> ty_wf b -> safe a b -> compat a b.
Proof.
  induction a as [| | | | | | |a IH|fs IH|fs IH] using ty_ind'; intros b Ha Hb Hs;
    try (destruct b; easy).
  - destruct b; try easy. now apply IH.
  - destruct b as [| | | | | | | |gs|gs]; try (destruct fs as [|? [|]]; easy).
    + simpl in *. destruct Ha as [Hnf Hwf], Hb as [Hng Hwg], Hs as [H1 H2].
      rewrite !allP_Forall, !Forall_forall in *. split.
      * intros f Hf. specialize (H1 f Hf).
        destruct (find_field (f_index f) gs) as [g|] eqn:E; [|exact I].
        apply find_field_in in E as [Hg Ei].
        apply (IH f Hf); [now apply Hwf|now apply Hwg|apply H1].
      * intros g Hg Hr. specialize (H2 g Hg).
        destruct (find_field (f_index g) fs) as [f|] eqn:E; [|now rewrite Hr in H2].
        apply find_field_in in E as [Hf Ei]. specialize (H1 f Hf). rewrite Ei in H1.
        rewrite (find_field_nodup gs g Hng Hg) in H1. destruct H1 as [Hrc _].
        now apply (always_present_required f g).
    + destruct fs as [|f [|]]; try easy. destruct gs as [|g [|]]; try easy.
      simpl in Hs |- *. destruct Hs as (E & R1 & R2 & Hs).
      repeat split; auto. apply (Forall_inv IH); [apply Ha|apply Hb|exact Hs].
  - destruct b as [| | | | | | | |gs|gs]; try (destruct fs as [|? [|]]; easy).
    + destruct fs as [|f [|]]; try easy. destruct gs as [|g [|]]; try easy.
      simpl in Hs |- *. destruct Hs as (E & R1 & R2 & Hs).
      repeat split; auto. apply (Forall_inv IH); [apply Ha|apply Hb|exact Hs].
    + simpl in *. destruct Ha as [Hnf Hwf], Hb as [Hng Hwg], Hs as [H1 H2].
      rewrite !allP_Forall, !Forall_forall in *. intros f Hf. specialize (H1 f Hf).
      destruct (find_field (f_index f) gs) as [g|] eqn:E.
      * apply find_field_in in E as [Hg Ei]. destruct H1 as [Hrc Hs]. split.
        -- apply (IH f Hf); [now apply Hwf|now apply Hwg|exact Hs].
        -- intros Ho. rewrite Ho in Hrc. destruct (f_rule f); easy.
      * destruct (f_rule f); easy.
Qed.

(** ** Fuel *)
Lemma choice_loop_mono ds : forall n bs v r m,
  choice_loop n ds bs = Ok v r -> (n <= m)%nat -> choice_loop m ds bs = Ok v r.
Proof.
  induction n as [|n IH]; intros bs v r m H Hm; [discriminate|].
  destruct m as [|m]; [lia|]. cbn [choice_loop] in *.
  destruct (deserialize_field_header bs) as [[i sz] rest|e| | |]; cbn [bindr] in *; try discriminate.
  destruct (assoc i ds) as [[ru d]|].
  - destruct (d sz (takeN sz rest)) as [w left|e| | |]; cbn [bindr] in *; try discriminate.
    destruct ru; try exact H.
    destruct (choice_loop n ds (left ++ dropN sz rest)) as [w' left'|e| | |] eqn:E;
      cbn [bindr] in *; try discriminate.
    rewrite (IH _ _ _ m E) by lia. exact H.
  - destruct (skip sz (takeN sz rest)) as [w left|e| | |]; cbn [bindr] in *; try discriminate.
    apply (IH _ _ _ m H). lia.
Qed.

(** ** One field *)
Lemma u64_header_payload n rest : n < two64 -> bytes_ok rest ->
  header_payload_ok (lenN (spec_u64 true n)) true (spec_u64 true n ++ rest).
Proof.
  intros Hn Hr _. unfold spec_u64. destruct (n =? 0); [now rewrite lenN_nil|].
  destruct (n <? 567382630219904) eqn:E; [|now rewrite lenN_le_bytes].
  intros _ _. rewrite spec_varint_length by exact Hn.
  destruct (varint_roundtrip_spec n rest Hn Hr) as [_ (b & tl & -> & Hb)].
  now exists b, (tl ++ rest).
Qed.

Lemma field_payload_ok v t rest : wt DOut v t -> bytes_ok rest ->
  header_payload_ok (lenN (spec_encode true v t)) (integer_encoded t)
                    (spec_encode true v t ++ rest).
Proof.
  intros Hw Hr. destruct t; try (intros H; discriminate H).
  - destruct v; try contradiction. now apply u64_header_payload.
  - destruct v; try contradiction. cbn [spec_encode wt] in *.
    rewrite <- zigzag_encode_spec by exact Hw. apply u64_header_payload; [|exact Hr].
    now apply zigzag_encode_lt.
  - destruct v; try contradiction. apply u64_header_payload; [|exact Hr].
    destruct b; reflexivity.
Qed.

Lemma field_header_decodes f v rest :
  wt DOut v (f_type f) -> ty_wf (f_type f) -> f_index f <= max_index ->
  lenN (field_bytes f v) < two64 -> bytes_ok rest ->
  deserialize_field_header (field_bytes f v ++ rest) =
    Ok (f_index f, lenN (spec_encode true v (f_type f))) (spec_encode true v (f_type f) ++ rest).
Proof.
  intros Hw Hwf Hi Hl Hr. unfold field_bytes in *. rewrite lenN_app in Hl.
  rewrite <- serialize_header_spec by (auto; lia). rewrite <- app_assoc.
  apply header_roundtrip; [exact Hi|lia| |].
  - apply bytes_ok_app; split; [|exact Hr]. apply spec_encode_ok; auto. lia.
  - now apply field_payload_ok.
Qed.

Lemma field_header_decodes_nil f v :
  wt DOut v (f_type f) -> ty_wf (f_type f) -> f_index f <= max_index ->
  lenN (field_bytes f v) < two64 ->
  deserialize_field_header (field_bytes f v) =
    Ok (f_index f, lenN (spec_encode true v (f_type f))) (spec_encode true v (f_type f)).
Proof.
  intros. pose proof (field_header_decodes f v []) as E. rewrite !app_nil_r in E.
  apply E; auto. constructor.
Qed.

Lemma field_bytes_length f v : ty_wf (f_type f) -> f_index f <= max_index ->
  lenN (field_bytes f v) < two64 -> (0 < length (field_bytes f v))%nat.
Proof.
  intros Hwf Hi Hl. unfold field_bytes in *. rewrite lenN_app in Hl. rewrite app_length.
  rewrite <- serialize_header_spec in * by (auto; lia).
  pose proof (header_size_spec (f_index f) (lenN (spec_encode true v (f_type f)))
    (integer_encoded (f_type f)) Hi ltac:(lia)) as H.
  unfold field_header_size in H. unfold lenN at 4 in H.
  pose proof varint_size_range as Hv.
  repeat match type of H with context [if ?c then _ else _] => destruct c end;
    match type of H with context [varint_size_from_value ?x] => pose proof (Hv x) end;
    unfold lenN in *; lia.
Qed.

Definition reads (lim : N) (v : val) : Prop := forall a b isf,
  wt DOut v a -> ty_wf a -> ty_wf b -> compat a b ->
  lenN (spec_encode isf v a) < two64 -> 8 * lenN (spec_encode isf v a) <= lim ->
  decode lim b isf (lenN (spec_encode isf v a)) (spec_encode isf v a) = Ok (migrate v a b) [].

(** ** Structs *)
Definition known_slots (ovs : list (option val)) (fs gs : list (field_of ty)) : list (N * val) :=
  concat (map2 (fun ov f => match ov, find_field (f_index f) gs with
                            | Some v, Some g => [(f_index f, migrate v (f_type f) (f_type g))]
                            | _, _ => [] end) ovs fs).

Lemma assoc_known i ovs fs gs :
  assoc i (known_slots ovs fs gs) = None \/ In i (indices fs).
Proof.
  revert ovs; induction fs as [|f fs IH]; intros [|ov ovs]; cbn; auto.
  unfold known_slots in *. rewrite assoc_app. specialize (IH ovs).
  destruct ov as [v|]; [destruct (find_field (f_index f) gs)|]; cbn [assoc];
    [destruct (f_index f =? i) eqn:E; [right; left; lia|]| |];
    destruct IH as [IH|IH]; auto.
Qed.

Lemma slot_of_known : forall fs ovs gs i, NoDup (indices fs) ->
  slot_of i (map2 (fun ov f =>
        (f_index f, match ov, find_field (f_index f) gs with
                    | Some v, Some g => Some (migrate v (f_type f) (f_type g))
                    | _, _ => None
                    end)) ovs fs) = assoc i (known_slots ovs fs gs).
Proof.
  induction fs as [|f fs IH]; intros [|ov ovs] gs i Hn; try reflexivity.
  inversion Hn as [|? ? Hni Hnd]; subst. cbn [map2 slot_of].
  unfold known_slots. cbn [map2 concat]. rewrite assoc_app.
  fold (known_slots ovs fs gs). rewrite <- (IH ovs gs i Hnd).
  destruct (f_index f =? i) eqn:E.
  - assert (f_index f = i) as Ei by lia.
    destruct ov as [v|]; [destruct (find_field (f_index f) gs)|]; cbn [assoc]; rewrite ?E; auto;
      rewrite IH by exact Hnd; destruct (assoc_known i ovs fs gs) as [->|Hin]; auto;
      exfalso; apply Hni; rewrite Ei; exact Hin.
  - destruct ov as [v|]; [destruct (find_field (f_index f) gs)|]; cbn [assoc]; rewrite ?E; auto.
Qed.

Lemma struct_loop_reads lim gs : forall fs ovs fuel slots,
  Forall (optP (reads lim)) ovs ->
  all2P (fun ov f => match ov with Some v => wt DOut v (f_type f)
                                 | None => always_present DOut (f_rule f) = false end) ovs fs ->
  NoDup (indices fs) ->
  Forall (fun f => f_index f <= max_index /\ ty_wf (f_type f)) fs ->
  Forall (fun f => f_index f <= max_index /\ ty_wf (f_type f)) gs ->
  Forall (fun f => match find_field (f_index f) gs with
                   | Some g => compat (f_type f) (f_type g) | None => True end) fs ->
  (forall i, In i (indices fs) -> assoc i slots = None) ->
  let bs := concat (map2 opt_field_bytes ovs fs) in
  lenN bs < two64 -> 8 * lenN bs <= lim -> (length bs < fuel)%nat ->
  struct_loop fuel (map (fun f => (f_index f, decode lim (f_type f) true)) gs) slots bs
    = Ok (slots ++ known_slots ovs fs gs) [].
Proof.
  induction fs as [|f fs IH]; intros ovs fuel slots Hr Hw Hn Hwf Hwg Hc Hs bs Hl Hlim Hfu; subst bs.
  - destruct ovs; [|contradiction]. destruct fuel; [cbn in Hfu; lia|]. cbn.
    now rewrite app_nil_r.
  - destruct ovs as [|ov ovs]; [contradiction|].
    inversion Hr as [|? ? Hr1 Hr2]; inversion Hwf as [|? ? [Hi Hwf1] Hwf2];
      inversion Hc as [|? ? Hc1 Hc2]; inversion Hn as [|? ? Hni Hnd]; subst.
    destruct Hw as [Hw1 Hw2]. cbn [map2 concat] in *. rewrite lenN_app, app_length in *.
    assert (bytes_ok (concat (map2 opt_field_bytes ovs fs))) as Hok.
    { apply fields_good; auto.
      - apply Forall_forall. intros [v|] _; [apply ser_spec|exact I].
      - lia. }
    destruct ov as [v|]; cbn [opt_field_bytes] in *.
    + pose proof (field_bytes_length f v Hwf1 Hi ltac:(lia)) as Hpos.
      destruct fuel as [|fuel]; [lia|]. cbn [struct_loop].
      rewrite field_header_decodes by (auto; lia).
      assert (lenN (spec_encode true v (f_type f)) <= lenN (field_bytes f v)) as Hle
        by (unfold field_bytes; rewrite lenN_app; lia).
      rewrite assoc_map_fields, takeN_app, dropN_app.
      destruct (find_field (f_index f) gs) as [g|] eqn:Eg; cbn [omap].
      * pose proof (find_field_in _ _ _ Eg) as [Hg Eig]. rewrite Forall_forall in Hwg.
        rewrite (Hr1 (f_type f) (f_type g) true Hw1 Hwf1 (proj2 (Hwg g Hg)) Hc1) by lia.
        cbn [bindr app]. rewrite IH; auto; try lia.
        -- f_equal. unfold get_or_insert. rewrite Hs by (now left).
           rewrite <- app_assoc. f_equal. unfold known_slots. cbn [map2 concat].
           rewrite Eg. reflexivity.
        -- apply Forall_forall. exact Hwg.
        -- intros i Hin. unfold get_or_insert. rewrite Hs by (now left).
           rewrite assoc_app, Hs by (now right). cbn [assoc].
           destruct (f_index f =? i) eqn:E; [|reflexivity].
           exfalso. apply Hni. replace (f_index f) with i by lia. exact Hin.
      * unfold skip. rewrite N.leb_refl. rewrite dropN_all by lia. cbn [bindr app].
        rewrite IH; auto; try lia.
        -- f_equal. f_equal. unfold known_slots. cbn [map2 concat]. rewrite Eg. reflexivity.
        -- intros i Hin. apply Hs. now right.
    + cbn [app length] in *. rewrite IH; auto; try lia.
      intros i Hin. apply Hs. now right.
Qed.

Lemma all2P_in {A B} (P : A -> B -> Prop) : forall l1 l2 y, all2P P l1 l2 -> In y l2 ->
  exists x, In (x, y) (combine l1 l2) /\ P x y.
Proof.
  induction l1 as [|x l1 IH]; intros [|y' l2] y H Hin; try contradiction.
  destruct H as [H1 H2]. destruct Hin as [->|Hin].
  - exists x. split; [now left|exact H1].
  - destruct (IH l2 y H2 Hin) as (x' & A1 & A2). exists x'. split; [now right|exact A2].
Qed.

Lemma assoc_known_some ovs fs gs f v g :
  NoDup (indices fs) -> In (Some v, f) (combine ovs fs) -> find_field (f_index f) gs = Some g ->
  assoc (f_index f) (known_slots ovs fs gs) = Some (migrate v (f_type f) (f_type g)).
Proof.
  revert ovs. induction fs as [|f' fs IH]; intros [|ov ovs] Hn Hin Hg; try contradiction.
  inversion Hn as [|? ? Hni Hnd]; subst. unfold known_slots. cbn [map2 concat].
  rewrite assoc_app. destruct Hin as [E|Hin].
  - injection E as -> ->. rewrite Hg. cbn [assoc]. now rewrite N.eqb_refl.
  - fold (known_slots ovs fs gs). rewrite (IH ovs Hnd Hin Hg).
    assert (f_index f' =? f_index f = false) as E.
    { destruct (f_index f' =? f_index f) eqn:E; [|reflexivity]. exfalso. apply Hni.
      replace (f_index f') with (f_index f) by lia.
      apply in_map. now apply in_combine_r in Hin. }
    destruct ov; [destruct (find_field (f_index f') gs)|]; cbn [assoc]; rewrite ?E; reflexivity.
Qed.

Lemma struct_reads lim ovs fs gs :
  Forall (optP (reads lim)) ovs ->
  wt DOut (VStruct ovs) (TStruct fs) -> ty_wf (TStruct fs) -> ty_wf (TStruct gs) ->
  compat (TStruct fs) (TStruct gs) -> forall isf,
  let e := spec_encode isf (VStruct ovs) (TStruct fs) in
  lenN e < two64 -> 8 * lenN e <= lim ->
  decode lim (TStruct gs) isf (lenN e) e = Ok (migrate (VStruct ovs) (TStruct fs) (TStruct gs)) [].
Proof.
  intros Hr Hw Ha Hb Hc isf e Hl Hlim. subst e.
  cbn [wt ty_wf compat] in *. destruct Ha as [Hnf Hwf], Hb as [Hng Hwg], Hc as [Hc1 Hc2].
  rewrite allP_Forall in *. cbn [decode].
  change (spec_encode isf (VStruct ovs) (TStruct fs)) with (concat (map2 opt_field_bytes ovs fs)) in *.
  rewrite (struct_loop_reads lim gs fs ovs _ []); auto. cbn [bindr app].
  assert (missing_required gs (known_slots ovs fs gs) = false) as ->.
  { unfold missing_required. apply not_true_is_false. intros He.
    apply existsb_exists in He as (g & Hg & He). apply andb_true_iff in He as [Hreq He].
    rewrite Forall_forall in Hc2. specialize (Hc2 g Hg).
    destruct (f_rule g) eqn:Er; try discriminate Hreq. specialize (Hc2 eq_refl).
    destruct (find_field (f_index g) fs) as [f|] eqn:Ef; [|contradiction].
    apply find_field_in in Ef as [Hf Ei].
    destruct (all2P_in _ _ _ f Hw Hf) as (ov & Hin & Hov).
    destruct ov as [v|]; [|congruence].
    rewrite <- Ei, (assoc_known_some ovs fs gs f v g) in He; auto; [discriminate|].
    rewrite Ei. now apply find_field_nodup. }
  f_equal. cbn [migrate]. f_equal. apply map_ext. intros g. symmetry. now apply slot_of_known.
Qed.

(** ** Small array elements *)
Lemma u64_elem_reads n rest : n < two64 -> bytes_ok rest ->
  dec_u64 false 0 (spec_u64 false n ++ rest) = Ok n rest.
Proof. intros. now apply varint_roundtrip_spec. Qed.

Lemma u64_field_reads isf n : n < two64 ->
  dec_u64 isf (lenN (spec_u64 isf n)) (spec_u64 isf n) = Ok n [].
Proof.
  intros Hn. unfold dec_u64, spec_u64.
  assert (deserialize_varint (spec_varint n) = Ok n []) as Hv.
  { rewrite <- (app_nil_r (spec_varint n)). apply varint_roundtrip_spec; [exact Hn|constructor]. }
  destruct isf; [|exact Hv].
  destruct (n =? 0) eqn:E0;
    [rewrite lenN_nil; change (0 =? 0) with true; cbv iota; f_equal; lia|].
  destruct (n <? 567382630219904) eqn:E.
  - rewrite spec_varint_length by exact Hn.
    assert (varint_size_from_value n <= 7) as Hs.
    { unfold varint_size_from_value.
      repeat match goal with |- context [if ?c then _ else _] => destruct c eqn:? end; lia. }
    pose proof (varint_size_range n).
    replace (varint_size_from_value n =? 0) with false by lia.
    replace (varint_size_from_value n =? 8) with false by lia. exact Hv.
  - rewrite lenN_le_bytes. change (N.of_nat 8 =? 0) with false. change (N.of_nat 8 =? 8) with true.
    cbv iota. unfold read_exact. rewrite lenN_le_bytes. change (8 <=? N.of_nat 8) with true.
    cbv iota. rewrite takeN_all, dropN_all by (rewrite lenN_le_bytes; lia). cbn [bindr].
    rewrite le_val_bytes; [reflexivity|]. exact Hn.
Qed.

Lemma f64_reads n rest : n < two64 -> dec_f64 false 0 (le_bytes 8 n ++ rest) = Ok n rest.
Proof.
  intros Hn. unfold dec_f64. cbn [andb]. unfold read_exact.
  rewrite lenN_app, lenN_le_bytes. replace (8 <=? N.of_nat 8 + lenN rest) with true by lia.
  rewrite takeN_app_eq, dropN_app_eq by (now rewrite lenN_le_bytes). cbn [bindr].
  now rewrite le_val_bytes.
Qed.

Lemma elem_reads lim v e rest :
  wt DOut v e -> is_unit e = false -> sized_element e = false -> bytes_ok rest ->
  decode lim e false 0 (spec_encode false v e ++ rest) = Ok v rest /\
  (0 < length (spec_encode false v e))%nat.
Proof.
  assert (forall n, n < two64 -> (0 < length (spec_u64 false n))%nat) as Hpos.
  { intros n Hn. pose proof (spec_varint_length n Hn). pose proof (varint_size_range n).
    unfold spec_u64, lenN in *. lia. }
  intros Hw Hu Hs Hr. destruct e; try discriminate; destruct v; try contradiction;
    cbn [decode spec_encode wt] in *; unfold mapr.
  - cbn [andb]. rewrite f64_reads by exact Hw. rewrite le_bytes_length. split; [reflexivity|lia].
  - rewrite u64_elem_reads by assumption. auto.
  - rewrite <- zigzag_encode_spec by exact Hw. pose proof (zigzag_encode_lt z Hw).
    rewrite u64_elem_reads by assumption. cbn [bindr]. rewrite zigzag_dec_enc by exact Hw. auto.
  - rewrite u64_elem_reads by (auto; destruct b; reflexivity). cbn [bindr].
    split; [now destruct b|]. apply Hpos. destruct b; reflexivity.
Qed.

Lemma small_loop_reads lim e : forall vs fuel,
  Forall (fun v => wt DOut v e) vs -> is_unit e = false -> sized_element e = false -> ty_wf e ->
  let bs := flat_map (fun v => spec_encode false v e) vs in
  lenN bs < two64 -> (length bs < fuel)%nat ->
  small_loop fuel (fun bs => decode lim e false 0 bs) bs = Ok vs [].
Proof.
  induction vs as [|v vs IH]; intros fuel Hw Hu Hs Hwf bs Hl Hf; subst bs.
  - destruct fuel; [cbn in Hf; lia|]. cbn [small_loop flat_map].
    destruct e; try discriminate; reflexivity.
  - inversion Hw as [|? ? Hw1 Hw2]; subst. cbn [flat_map] in *.
    rewrite lenN_app, app_length in *.
    assert (bytes_ok (flat_map (fun v => spec_encode false v e) vs)) as Hok.
    { clear - Hw2 Hwf Hl. induction vs as [|v' vs IH]; cbn [flat_map] in *; [constructor|].
      inversion Hw2; subst. rewrite lenN_app in Hl. apply bytes_ok_app; split.
      - apply spec_encode_ok; auto. lia.
      - apply IH; auto. lia. }
    destruct (elem_reads lim v e _ Hw1 Hu Hs Hok) as [He Hp].
    destruct fuel as [|fuel]; [lia|]. cbn [small_loop]. rewrite He.
    rewrite IH; auto; lia.
Qed.

Lemma sized_loop_reads lim a b : forall vs fuel,
  Forall (reads lim) vs -> Forall (fun v => wt DOut v a) vs -> ty_wf a -> ty_wf b -> compat a b ->
  let bs := flat_map (sized_bytes a) vs in
  lenN bs < two64 -> 8 * lenN bs <= lim -> (length bs < fuel)%nat ->
  sized_loop fuel (decode lim b false) bs = Ok (map (fun v => migrate v a b) vs) [].
Proof.
  induction vs as [|v vs IH]; intros fuel Hr Hw Ha Hb Hc bs Hl Hlim Hf; subst bs.
  - destruct fuel; [cbn in Hf; lia|]. reflexivity.
  - inversion Hw as [|? ? Hw1 Hw2]; inversion Hr as [|? ? Hr1 Hr2]; subst. cbn [flat_map map] in *.
    rewrite lenN_app, app_length in *.
    assert (bytes_ok (flat_map (sized_bytes a) vs)) as Hok.
    { apply array_sized; auto; [|lia]. apply Forall_forall. intros x _. apply ser_spec. }
    unfold sized_bytes at 1 in Hl. unfold sized_bytes at 1 in Hlim. unfold sized_bytes at 1 in Hf.
    rewrite lenN_app, app_length in *.
    assert (lenN (spec_encode false v a) < two64) as Hv by lia.
    pose proof (spec_varint_length _ Hv) as Hsl.
    pose proof (varint_size_range (lenN (spec_encode false v a))) as Hsr.
    destruct fuel as [|fuel]; [lia|]. cbn [sized_loop]. unfold sized_bytes at 1.
    rewrite <- app_assoc.
    destruct (varint_roundtrip_spec (lenN (spec_encode false v a))
                (spec_encode false v a ++ flat_map (sized_bytes a) vs) Hv) as [-> _].
    { apply bytes_ok_app; split; [|exact Hok]. now apply spec_encode_ok. }
    rewrite takeN_app, dropN_app.
    rewrite (Hr1 a b false Hw1 Ha Hb Hc) by lia. cbn [bindr app].
    rewrite IH; auto; unfold lenN in *; lia.
Qed.

Lemma compat_unit a b : compat a b -> is_unit a = is_unit b /\ sized_element a = sized_element b.
Proof.
  destruct a as [| | | | | | | |[|f [|]]|[|f [|]]], b; try easy.
Qed.
Lemma compat_small a b : compat a b -> sized_element a = false -> a = b.
Proof. destruct a, b; easy. Qed.
Lemma migrate_small v e : wt DOut v e -> sized_element e = false -> migrate v e e = v.
Proof. destruct e, v; easy. Qed.

Lemma array_reads lim vs a b :
  Forall (reads lim) vs -> Forall (fun v => wt DOut v a) vs -> is_unit a = false ->
  ty_wf a -> ty_wf b -> compat a b -> forall isf,
  let e := spec_encode isf (VArr vs) (TArray a) in
  lenN e < two64 -> 8 * lenN e <= lim ->
  decode lim (TArray b) isf (lenN e) e = Ok (VArr (map (fun v => migrate v a b) vs)) [].
Proof.
  intros Hr Hw Hu Ha Hb Hc isf e Hl Hlim. subst e.
  destruct (compat_unit a b Hc) as [Hub Hsb].
  destruct (sized_element a) eqn:Hs.
  - assert (spec_encode isf (VArr vs) (TArray a) = flat_map (sized_bytes a) vs) as E.
    { cbn [spec_encode]. destruct a; try discriminate; reflexivity. }
    rewrite E in *. rewrite Hub in Hu.
    assert (decode lim (TArray b) isf (lenN (flat_map (sized_bytes a) vs)) (flat_map (sized_bytes a) vs)
      = mapr VArr (sized_loop (S (length (flat_map (sized_bytes a) vs))) (decode lim b false)
          (flat_map (sized_bytes a) vs))) as ->.
    { destruct b; try discriminate; reflexivity. }
    rewrite (sized_loop_reads lim a b); auto.
  - rewrite <- (compat_small a b Hc Hs) in *.
    assert (spec_encode isf (VArr vs) (TArray a) = flat_map (fun v => spec_encode false v a) vs) as E.
    { cbn [spec_encode]. destruct a; try discriminate; reflexivity. }
    rewrite E in *.
    assert (map (fun v => migrate v a a) vs = vs) as ->.
    { clear - Hw Hs. induction Hw; cbn; [reflexivity|]. f_equal; auto. now apply migrate_small. }
    set (bs := flat_map (fun v => spec_encode false v a) vs) in *.
    assert (decode lim (TArray a) isf (lenN bs) bs
      = mapr VArr (small_loop (S (length bs)) (fun bs => decode lim a false 0 bs) bs)) as ->.
    { destruct a; try discriminate; try reflexivity. cbn [decode]. unfold reserve.
      replace (lim <? 8 * lenN bs) with false by lia. reflexivity. }
    rewrite (small_loop_reads lim a vs); auto.
Qed.

Lemma reads_all lim : forall v, reads lim v.
Proof.
  induction v as [|x|n|z|x|bs|s|n|vs IH|ovs IH|i p fb IHp IHfb] using val_ind';
    intros a b isf Hw Ha Hb Hc Hl Hlim.
  - destruct a; try contradiction. destruct b; try contradiction. reflexivity.
  - destruct a; try contradiction. destruct b; try contradiction.
    cbn [wt spec_encode decode migrate] in *. unfold dec_f64, mapr.
    destruct isf; cbn [andb] in *; [destruct (x =? 0) eqn:E|].
    + rewrite lenN_nil. change (0 =? 0) with true. cbn [bindr]. do 2 f_equal. lia.
    + rewrite lenN_le_bytes. change (N.of_nat 8 =? 0) with false. cbv iota.
      rewrite <- (app_nil_r (le_bytes 8 x)).
      pose proof (f64_reads x [] Hw) as H. unfold dec_f64 in H. cbn [andb] in H. rewrite H. reflexivity.
    + rewrite <- (app_nil_r (le_bytes 8 x)).
      pose proof (f64_reads x [] Hw) as H. unfold dec_f64 in H. cbn [andb] in H. rewrite H. reflexivity.
  - destruct a; try contradiction. destruct b; try contradiction.
    cbn [wt spec_encode decode migrate] in *. now rewrite u64_field_reads.
  - destruct a; try contradiction. destruct b; try contradiction.
    cbn [wt spec_encode decode migrate] in *. rewrite <- zigzag_encode_spec by exact Hw.
    rewrite u64_field_reads by (now apply zigzag_encode_lt). cbn. now rewrite zigzag_dec_enc.
  - destruct a; try contradiction. destruct b; try contradiction.
    cbn [wt spec_encode decode migrate] in *. rewrite u64_field_reads by (destruct x; reflexivity).
    now destruct x.
  - destruct a; try contradiction. destruct b; try contradiction.
    cbn [wt spec_encode decode migrate] in *. unfold reserve.
    replace (lim <? lenN bs) with false by lia. reflexivity.
  - destruct a; try contradiction. destruct b; try contradiction.
    cbn [wt spec_encode decode migrate] in *. unfold reserve.
    replace (lim <? lenN (utf8_encode s)) with false by lia. now rewrite utf8_decode_encode.
  - destruct a as [| | | | | | |a| |]; try contradiction. destruct a; try contradiction.
    destruct b as [| | | | | | |b| |]; try contradiction. destruct b; try contradiction.
    cbn [wt spec_encode decode migrate] in *. now rewrite u64_field_reads.
  - destruct a as [| | | | | | |a| |]; try contradiction.
    destruct b as [| | | | | | |b| |]; try contradiction.
    cbn [wt ty_wf compat] in *. destruct Hw as [Hu Hw]. apply allP_Forall in Hw.
    now apply array_reads.
  - destruct a as [| | | | | | | |fs|]; try contradiction.
    destruct b as [| | | | | | | |gs|gs]; try (destruct fs as [|? [|]]; contradiction).
    + now apply struct_reads.
    + (* struct with one required field read as a choice *)
      destruct fs as [|f [|]]; try contradiction. destruct gs as [|g [|]]; try contradiction.
      cbn [compat] in Hc. destruct Hc as (Ei & R1 & R2 & Hc).
      cbn [wt all2P] in Hw. destruct ovs as [|ov [|]]; try (now destruct Hw).
      destruct ov as [v|]; [|cbn in Hw; rewrite R1 in Hw; now destruct Hw].
      destruct Hw as [Hw _]. cbn [ty_wf allP] in Ha, Hb.
      destruct Ha as (_ & (Hif & Haf) & _), Hb as (_ & (Hig & Hbg) & _).
      assert (spec_encode isf (VStruct [Some v]) (TStruct [f]) = field_bytes f v) as E
        by (cbn; apply app_nil_r).
      rewrite E in *. cbn [decode choice_loop].
      rewrite field_header_decodes_nil by auto. cbn [bindr map assoc].
      replace (f_index g =? f_index f) with true by lia. cbv iota beta.
      unfold field_bytes in Hl, Hlim. rewrite lenN_app in Hl, Hlim.
      rewrite takeN_all, dropN_all by lia.
      inversion IH as [|? ? IH1 _]; subst. cbn [optP] in IH1.
      rewrite (IH1 (f_type f) (f_type g) true) by (auto; lia).
      cbn [bindr]. rewrite R2. cbn [bindr finish migrate]. rewrite Ei. reflexivity.
  - destruct a as [| | | | | | | | |fs]; try contradiction.
    destruct b as [| | | | | | | |gs|gs]; try (destruct fs as [|? [|]]; contradiction).
    + (* choice with one required field read as a struct *)
      destruct fs as [|f [|]]; try contradiction. destruct gs as [|g [|]]; try contradiction.
      cbn [compat] in Hc. destruct Hc as (Ei & R1 & R2 & Hc).
      cbn [wt find_field] in Hw. destruct (f_index f =? i) eqn:Efi; [|contradiction].
      destruct Hw as [Hw Hfb]. rewrite R1 in Hfb.
      destruct fb; [destruct Hfb; discriminate|]. cbn [ty_wf allP] in Ha, Hb.
      destruct Ha as (_ & (Hif & Haf) & _), Hb as (_ & (Hig & Hbg) & _).
      assert (spec_encode isf (VChoice i p None) (TChoice [f]) = field_bytes f p) as E.
      { cbn [spec_encode find_field]. rewrite Efi, app_nil_r. reflexivity. }
      rewrite E in *. cbn [decode].
      pose proof (field_bytes_length f p Haf Hif ltac:(lia)) as Hpos.
      cbn [struct_loop]. rewrite field_header_decodes_nil by auto. cbn [map assoc].
      replace (f_index g =? f_index f) with true by lia. cbv iota beta.
      unfold field_bytes in Hl, Hlim. rewrite lenN_app in Hl, Hlim.
      rewrite takeN_all, dropN_all by lia.
      rewrite (IHp (f_type f) (f_type g) true) by (auto; lia).
      cbn [bindr app]. destruct (length (field_bytes f p)) as [|k] eqn:Ek; [lia|].
      cbn [struct_loop]. change (deserialize_field_header []) with (@Err (N * N) EOF).
      unfold missing_required, get_or_insert. cbn [assoc app bindr existsb map].
      replace (f_index f =? f_index g) with true by lia. rewrite andb_false_r. reflexivity.
    + pose proof Hc as Hc0. pose proof Hb as Hb0. pose proof Ha as Ha0.
      cbn [ty_wf compat] in Ha, Hb, Hc.
      destruct Ha as [Hnf Hwf], Hb as [Hng Hwg]. rewrite allP_Forall, Forall_forall in *.
      assert (forall isf, spec_encode isf (VChoice i p fb) (TChoice fs)
                = spec_encode true (VChoice i p fb) (TChoice fs)) as Hisf by (destruct isf0; reflexivity).
      rewrite Hisf in *. clear Hisf.
      cbn [wt] in Hw. cbn [spec_encode migrate] in *.
      destruct (find_field i fs) as [f|] eqn:Ef; [|contradiction].
      pose proof (find_field_in _ _ _ Ef) as [Hf Ei]. destruct Hw as [Hw Hfb].
      destruct (Hwf f Hf) as [Hif Hwf1]. specialize (Hc f Hf). rewrite Ei in Hc.
      cbv zeta in Hl, Hlim |- *.
      match type of Hl with lenN (_ ++ _ ++ ?t) < _ => set (tail := t) in * end.
      assert (spec_header (f_index f) (lenN (spec_encode true p (f_type f)))
                (integer_encoded (f_type f)) ++ spec_encode true p (f_type f) ++ tail
              = field_bytes f p ++ tail) as E by (unfold field_bytes; now rewrite app_assoc).
      rewrite E in *. rewrite lenN_app in Hl, Hlim.
      assert (bytes_ok tail) as Htok.
      { subst tail. destruct fb as [v'|]; [|constructor].
        apply spec_encode_ok; [apply Hfb|exact Ha0|lia]. }
      pose proof (field_bytes_length f p Hwf1 Hif ltac:(lia)) as Hpos.
      assert (lenN (spec_encode true p (f_type f)) <= lenN (field_bytes f p)) as Hle
        by (unfold field_bytes; rewrite lenN_app; lia).
      assert (forall fuel, (length tail < fuel)%nat -> forall v', fb = Some v' ->
                choice_loop fuel (map (fun f => (f_index f, (f_rule f, decode lim (f_type f) true))) gs)
                  tail = Ok (migrate v' (TChoice fs) (TChoice gs)) []) as Htail.
      { intros fuel Hfuel v' ->. cbn [optP] in IHfb. subst tail.
        pose proof (IHfb (TChoice fs) (TChoice gs) true (proj2 Hfb) Ha0 Hb0 Hc0
                      ltac:(lia) ltac:(lia)) as H.
        eapply choice_loop_mono; [exact H|]. lia. }
      cbn [decode choice_loop]. rewrite field_header_decodes by (auto; lia). cbn [bindr].
      rewrite assoc_map_fields, takeN_app, dropN_app, Ei.
      destruct (find_field i gs) as [g|] eqn:Eg; cbn [omap].
      * destruct Hc as [Hc Hopt].
        pose proof (find_field_in _ _ _ Eg) as [Hg Eig].
        rewrite (IHp (f_type f) (f_type g) true) by (auto; try lia; now apply Hwg).
        cbn [bindr app].
        destruct (f_rule g); cbn [finish bindr]; try reflexivity.
        specialize (Hopt eq_refl). destruct fb as [v'|]; [|congruence].
        rewrite (fun H => Htail (length (field_bytes f p ++ tail)) H v' eq_refl)
          by (rewrite app_length; lia). reflexivity.
      * unfold skip. rewrite N.leb_refl, dropN_all by lia. cbn [bindr app].
        destruct fb as [v'|]; [|congruence].
        rewrite (fun H => Htail (length (field_bytes f p ++ tail)) H v' eq_refl)
          by (rewrite app_length; lia). reflexivity.
Qed.
