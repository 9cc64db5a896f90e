From Verif Require Export Visits FieldsFacts.

Definition bad {A} (r : res A) : Prop := r = Panic \/ r = Diverge.

(** Unfolding the decoder by one field. *)
Lemma struct_step lim fs isf psz bs i sz rest : fields_wf fs -> bytes_ok bs ->
  deserialize_field_header bs = Ok (i, sz) rest ->
  bytes_ok rest /\
  match find_field i fs with
  | None =>
      if sz <=? lenN rest then
        forall r, bad r -> decode lim (TStruct fs) isf psz bs = r <->
                           decode lim (TStruct fs) isf psz (dropN sz rest) = r
      else decode lim (TStruct fs) isf psz bs = Diverge
  | Some f =>
      match decode lim (f_type f) true sz (takeN sz rest) with
      | Ok v lft => forall r, bad r -> decode lim (TStruct fs) isf psz bs = r <->
                           decode lim (TStruct fs) isf psz (lft ++ dropN sz rest) = r
      | Err e => exists e', decode lim (TStruct fs) isf psz bs = Err e'
      | Panic => decode lim (TStruct fs) isf psz bs = Panic
      | Diverge => decode lim (TStruct fs) isf psz bs = Diverge
      | OutOfFuel => False
      end
  end.
Proof.
  intros Hwf Hok Hh. pose proof (proj1 (header_post bs Hok)) as Hp. rewrite Hh in Hp. simpl in Hp.
  destruct Hp as (Hps & _ & _).
  assert (bytes_ok rest) as Hokr by (eapply suffix_ok; [apply psuffix_suffix; exact Hps|exact Hok]).
  apply psuffix_length in Hps. split; [exact Hokr|].
  assert (forall slots bs', bytes_ok bs' -> (length bs' < length bs)%nat -> forall r : res val, bad r ->
    bindr (struct_loop (length bs) (sds lim fs) slots bs')
      (fun slots rest => if missing_required fs slots then Err InvalidData
           else Ok (VStruct (map (fun f => assoc (f_index f) slots) fs)) rest) = r <->
    decode lim (TStruct fs) isf psz bs' = r) as Hcont.
  { intros slots bs' Hok' Hlt r Hr. cbn [decode]. fold (sds lim fs).
    rewrite (struct_loop_fuel (sds lim fs) (sds_ok lim fs Hwf) (length bs) (S (length bs')) slots bs' Hok' Hlt) by lia.
    assert (forall n s1 s2 b, bad r ->
      (match struct_loop n (sds lim fs) s1 b with Panic => r = Panic | Diverge => r = Diverge | _ => False end) <->
      (match struct_loop n (sds lim fs) s2 b with Panic => r = Panic | Diverge => r = Diverge | _ => False end))
      as Hslots.
    { clear - Hwf. intros n. induction n as [|n IH]; intros s1 s2 b Hb; [cbn; tauto|].
      cbn [struct_loop]. destruct (deserialize_field_header b) as [[i sz] rest|[]| | |]; try tauto.
      destruct (assoc i (sds lim fs)) as [d|].
      - destruct (d sz (takeN sz rest)); cbn [bindr]; try tauto. now apply IH.
      - destruct (skip sz (takeN sz rest)); cbn [bindr]; try tauto. now apply IH. }
    specialize (Hslots (S (length bs')) slots [] bs' Hr).
    destruct (struct_loop (S (length bs')) (sds lim fs) slots bs') as [s1 r1|e1| | |];
      destruct (struct_loop (S (length bs')) (sds lim fs) [] bs') as [s2 r2|e2| | |];
      cbn [bindr]; try destruct (missing_required fs s1); try destruct (missing_required fs s2);
      destruct Hr as [-> | ->]; intuition (try congruence). }
  cbn [decode]. fold (sds lim fs). cbn [struct_loop]. rewrite Hh. rewrite assoc_sds.
  destruct (find_field i fs) as [f|] eqn:Ef; cbn [omap].
  - assert (ty_wf (f_type f)) as Ht.
    { unfold fields_wf in Hwf. rewrite Forall_forall in Hwf. apply find_field_in in Ef as [Hin _]. now apply Hwf. }
    pose proof (decode_dec_ok lim (f_type f) true Ht sz (takeN sz rest) (bytes_ok_takeN _ _ Hokr)) as Hd.
    destruct (decode lim (f_type f) true sz (takeN sz rest)) as [v left|e| | |]; cbn [bindr] in *; eauto.
    simpl in Hd. destruct Hd as [Hl _]. apply suffix_take_drop in Hl. pose proof (suffix_length _ _ Hl).
    intros r Hr. apply Hcont; auto; [eapply suffix_ok; eauto|lia].
  - unfold skip. rewrite lenN_takeN. destruct (sz <=? lenN rest) eqn:E.
    + replace (sz <=? N.min sz (lenN rest)) with true by lia. cbn [bindr].
      rewrite dropN_all by (rewrite lenN_takeN; lia). cbn [app]. intros r Hr.
      apply Hcont; auto; [now apply bytes_ok_dropN|]. pose proof (length_dropN sz rest). lia.
    + replace (sz <=? N.min sz (lenN rest)) with false by lia. reflexivity.
Qed.

Lemma choice_step lim fs isf psz bs i sz rest : fields_wf fs -> bytes_ok bs ->
  deserialize_field_header bs = Ok (i, sz) rest ->
  bytes_ok rest /\
  match find_field i fs with
  | None =>
      if sz <=? lenN rest then
        decode lim (TChoice fs) isf psz bs = decode lim (TChoice fs) isf psz (dropN sz rest)
      else decode lim (TChoice fs) isf psz bs = Diverge
  | Some f =>
      match decode lim (f_type f) true sz (takeN sz rest) with
      | Ok v lft =>
          match f_rule f with
          | Optional => forall r, bad r -> decode lim (TChoice fs) isf psz bs = r <->
                           decode lim (TChoice fs) isf psz (lft ++ dropN sz rest) = r
          | _ => exists w, decode lim (TChoice fs) isf psz bs = Ok w []
          end
      | Err e => exists e', decode lim (TChoice fs) isf psz bs = Err e'
      | Panic => decode lim (TChoice fs) isf psz bs = Panic
      | Diverge => decode lim (TChoice fs) isf psz bs = Diverge
      | OutOfFuel => False
      end
  end.
Proof.
  intros Hwf Hok Hh. pose proof (proj1 (header_post bs Hok)) as Hp. rewrite Hh in Hp. simpl in Hp.
  destruct Hp as (Hps & _ & _).
  assert (bytes_ok rest) as Hokr by (eapply suffix_ok; [apply psuffix_suffix; exact Hps|exact Hok]).
  apply psuffix_length in Hps. split; [exact Hokr|].
  assert (forall bs', bytes_ok bs' -> (length bs' < length bs)%nat ->
    choice_loop (length bs) (cds lim fs) bs' = decode lim (TChoice fs) isf psz bs') as Hcont.
  { intros bs' Hok' Hlt. cbn [decode]. fold (cds lim fs).
    apply choice_loop_fuel; auto; try lia. now apply cds_ok. }
  set (D := decode lim (TChoice fs) isf psz) in *.
  assert (D bs = choice_loop (S (length bs)) (cds lim fs) bs) as -> by reflexivity.
  cbn [choice_loop]. rewrite Hh. cbn [bindr]. rewrite assoc_cds.
  destruct (find_field i fs) as [f|] eqn:Ef; cbn [omap].
  - assert (ty_wf (f_type f)) as Ht.
    { unfold fields_wf in Hwf. rewrite Forall_forall in Hwf. apply find_field_in in Ef as [Hin _]. now apply Hwf. }
    pose proof (decode_dec_ok lim (f_type f) true Ht sz (takeN sz rest) (bytes_ok_takeN _ _ Hokr)) as Hd.
    destruct (decode lim (f_type f) true sz (takeN sz rest)) as [v left|e| | |]; cbn [bindr] in *; eauto.
    simpl in Hd. destruct Hd as [Hl _]. apply suffix_take_drop in Hl. pose proof (suffix_length _ _ Hl).
    destruct (f_rule f); cbn [finish bindr]; eauto.
    rewrite Hcont; [|eapply suffix_ok; eauto|lia]. intros r Hr.
    destruct (D (left ++ dropN sz rest)); cbn [bindr]; destruct Hr as [-> | ->]; intuition congruence.
  - unfold skip. rewrite lenN_takeN. destruct (sz <=? lenN rest) eqn:E.
    + replace (sz <=? N.min sz (lenN rest)) with true by lia. cbn [bindr].
      rewrite dropN_all by (rewrite lenN_takeN; lia). cbn [app].
      apply Hcont; auto; [now apply bytes_ok_dropN|]. pose proof (length_dropN sz rest). lia.
    + replace (sz <=? N.min sz (lenN rest)) with false by lia. reflexivity.
Qed.

Lemma array_step lim e isf psz bs : ty_wf e -> bytes_ok bs -> sized_element e = true ->
  match deserialize_varint bs with
  | Ok sz rest =>
      bytes_ok rest /\
      match decode lim e false sz (takeN sz rest) with
      | Ok v lft => forall r, bad r -> decode lim (TArray e) isf psz bs = r <->
                           decode lim (TArray e) isf psz (lft ++ dropN sz rest) = r
      | Err e' => exists e2, decode lim (TArray e) isf psz bs = Err e2
      | Panic => decode lim (TArray e) isf psz bs = Panic
      | Diverge => decode lim (TArray e) isf psz bs = Diverge
      | OutOfFuel => False
      end
  | _ => exists v, decode lim (TArray e) isf psz bs = Ok v []
  end.
Proof.
  intros Ht Hok He.
  assert (forall bs', decode lim (TArray e) isf psz bs' =
    mapr VArr (sized_loop (S (length bs')) (decode lim e false) bs')) as Hd
    by (intros bs'; destruct e; try discriminate; reflexivity).
  rewrite Hd. cbn [sized_loop]. destruct (varint_post bs Hok) as (Hp & Hnp & Hnd & Hni).
  destruct (deserialize_varint bs) as [sz rest|[]| | |]; simpl in Hp; try contradiction;
    try congruence; [|cbn; eauto].
  destruct Hp as [Hps _].
  assert (bytes_ok rest) as Hokr by (eapply suffix_ok; [apply psuffix_suffix; exact Hps|exact Hok]).
  apply psuffix_length in Hps. split; [exact Hokr|].
  pose proof (decode_dec_ok lim e false Ht sz (takeN sz rest) (bytes_ok_takeN _ _ Hokr)) as Hd2.
  destruct (decode lim e false sz (takeN sz rest)) as [v left|e2| | |]; cbn [bindr mapr rpost] in *; eauto.
  destruct Hd2 as [Hl _]. apply suffix_take_drop in Hl. pose proof (suffix_length _ _ Hl).
  intros r Hr. rewrite Hd.
  rewrite (sized_loop_fuel (decode lim e false) (decode_dec_ok lim e false Ht)
             (length bs) (S (length (left ++ dropN sz rest)))); [|eapply suffix_ok; eauto|lia|lia].
  destruct (sized_loop _ _ (left ++ dropN sz rest)); cbn; destruct Hr as [-> | ->]; intuition congruence.
Qed.

(** ** A visited node that misbehaves makes the whole misbehave *)
Lemma visits_bad lim t isf psz bs t' isf' psz' bs' :
  visits lim t isf psz bs t' isf' psz' bs' -> ty_wf t -> bytes_ok bs ->
  bytes_ok bs' /\ ty_wf t' /\
  forall r, bad r -> decode lim t' isf' psz' bs' = r -> decode lim t isf psz bs = r.
Proof.
  induction 1 as
    [t isf psz bs
    |fs isf psz bs i sz rest t' isf' psz' bs' Hh Ef Hle Hv IH
    |fs isf psz bs i sz rest f t' isf' psz' bs' Hh Ef Hv IH
    |fs isf psz bs i sz rest f v left t' isf' psz' bs' Hh Ef Hd Hv IH
    |fs isf psz bs i sz rest t' isf' psz' bs' Hh Ef Hle Hv IH
    |fs isf psz bs i sz rest f t' isf' psz' bs' Hh Ef Hv IH
    |fs isf psz bs i sz rest f v left t' isf' psz' bs' Hh Ef Hr Hd Hv IH
    |e isf psz bs sz rest t' isf' psz' bs' He Hh Hv IH
    |e isf psz bs sz rest v left t' isf' psz' bs' He Hh Hd Hv IH]; intros Ht Hok; auto.
  - pose proof Ht as [Hnd Hwf]. apply allP_Forall in Hwf.
    destruct (struct_step lim fs isf psz bs i sz rest Hwf Hok Hh) as [Hokr Hs]. rewrite Ef in Hs.
    replace (sz <=? lenN rest) with true in Hs by lia.
    destruct (IH Ht (bytes_ok_dropN _ _ Hokr)) as (H1 & H2 & H3). repeat split; auto.
    intros r Hr E. apply Hs; auto.
  - pose proof Ht as [Hnd Hwf]. apply allP_Forall in Hwf.
    destruct (struct_step lim fs isf psz bs i sz rest Hwf Hok Hh) as [Hokr Hs]. rewrite Ef in Hs.
    assert (ty_wf (f_type f)) as Htf.
    { rewrite Forall_forall in Hwf. apply find_field_in in Ef as [Hin _]. now apply Hwf. }
    destruct (IH Htf (bytes_ok_takeN _ _ Hokr)) as (H1 & H2 & H3). repeat split; auto.
    intros r Hr E. specialize (H3 r Hr E). rewrite H3 in Hs. destruct Hr as [-> | ->]; exact Hs.
  - pose proof Ht as [Hnd Hwf]. apply allP_Forall in Hwf.
    destruct (struct_step lim fs isf psz bs i sz rest Hwf Hok Hh) as [Hokr Hs]. rewrite Ef, Hd in Hs.
    assert (ty_wf (f_type f)) as Htf.
    { rewrite Forall_forall in Hwf. apply find_field_in in Ef as [Hin _]. now apply Hwf. }
    pose proof (decode_dec_ok lim (f_type f) true Htf sz (takeN sz rest) (bytes_ok_takeN _ _ Hokr)) as Hl.
    rewrite Hd in Hl. simpl in Hl. destruct Hl as [Hl _]. apply suffix_take_drop in Hl.
    destruct (IH Ht (suffix_ok _ _ Hl Hokr)) as (H1 & H2 & H3). repeat split; auto.
    intros r Hr E. apply Hs; auto.
  - pose proof Ht as [Hnd Hwf]. apply allP_Forall in Hwf.
    destruct (choice_step lim fs isf psz bs i sz rest Hwf Hok Hh) as [Hokr Hs]. rewrite Ef in Hs.
    replace (sz <=? lenN rest) with true in Hs by lia.
    destruct (IH Ht (bytes_ok_dropN _ _ Hokr)) as (H1 & H2 & H3). repeat split; auto.
    intros r Hr E. rewrite Hs. auto.
  - pose proof Ht as [Hnd Hwf]. apply allP_Forall in Hwf.
    destruct (choice_step lim fs isf psz bs i sz rest Hwf Hok Hh) as [Hokr Hs]. rewrite Ef in Hs.
    assert (ty_wf (f_type f)) as Htf.
    { rewrite Forall_forall in Hwf. apply find_field_in in Ef as [Hin _]. now apply Hwf. }
    destruct (IH Htf (bytes_ok_takeN _ _ Hokr)) as (H1 & H2 & H3). repeat split; auto.
    intros r Hr E. specialize (H3 r Hr E). rewrite H3 in Hs. destruct Hr as [-> | ->]; exact Hs.
  - pose proof Ht as [Hnd Hwf]. apply allP_Forall in Hwf.
    destruct (choice_step lim fs isf psz bs i sz rest Hwf Hok Hh) as [Hokr Hs]. rewrite Ef, Hd, Hr in Hs.
    assert (ty_wf (f_type f)) as Htf.
    { rewrite Forall_forall in Hwf. apply find_field_in in Ef as [Hin _]. now apply Hwf. }
    pose proof (decode_dec_ok lim (f_type f) true Htf sz (takeN sz rest) (bytes_ok_takeN _ _ Hokr)) as Hl.
    rewrite Hd in Hl. simpl in Hl. destruct Hl as [Hl _]. apply suffix_take_drop in Hl.
    destruct (IH Ht (suffix_ok _ _ Hl Hokr)) as (H1 & H2 & H3). repeat split; auto.
    intros r Hr2 E. apply Hs; auto.
  - pose proof (array_step lim e isf psz bs Ht Hok He) as Hs. rewrite Hh in Hs. destruct Hs as [Hokr Hs].
    destruct (IH Ht (bytes_ok_takeN _ _ Hokr)) as (H1 & H2 & H3). repeat split; auto.
    intros r Hr E. specialize (H3 r Hr E). rewrite H3 in Hs. destruct Hr as [-> | ->]; exact Hs.
  - pose proof (array_step lim e isf psz bs Ht Hok He) as Hs. rewrite Hh in Hs. destruct Hs as [Hokr Hs].
    rewrite Hd in Hs.
    pose proof (decode_dec_ok lim e false Ht sz (takeN sz rest) (bytes_ok_takeN _ _ Hokr)) as Hl.
    rewrite Hd in Hl. simpl in Hl. destruct Hl as [Hl _]. apply suffix_take_drop in Hl.
    destruct (IH Ht (suffix_ok _ _ Hl Hokr)) as (H1 & H2 & H3). repeat split; auto.
    intros r Hr E. apply Hs; auto.
Qed.

(** ** Conversely, misbehaviour has a visited cause *)
Definition cause (lim : N) (r : res val) (t : ty) (psz : N) (bs : bytes) : Prop :=
  (r = Panic /\ oversized lim t psz) \/ (r = Diverge /\ truncated_unknown t bs).

Definition has_cause (lim : N) (t : ty) : Prop := forall isf psz bs r, bytes_ok bs -> bad r ->
  decode lim t isf psz bs = r ->
  exists t' isf' psz' bs', visits lim t isf psz bs t' isf' psz' bs' /\ cause lim r t' psz' bs'.

Lemma dec_u64_not_bad isf psz bs : bytes_ok bs -> ~ bad (dec_u64 isf psz bs).
Proof.
  intros Hok. destruct (varint_post bs Hok) as (_ & Hnp & Hnd & _). unfold dec_u64.
  assert (~ bad (deserialize_varint bs)) as Hv by (intros [H|H]; auto).
  destruct isf; [|exact Hv]. destruct (psz =? 0); [intros [H|H]; discriminate|].
  destruct (psz =? 8); [|exact Hv]. unfold read_exact.
  destruct (8 <=? lenN bs); intros [H|H]; discriminate.
Qed.
Lemma dec_f64_not_bad isf psz bs : ~ bad (dec_f64 isf psz bs).
Proof.
  unfold dec_f64, read_exact. destruct (isf && (psz =? 0)); [intros [H|H]; discriminate|].
  destruct (8 <=? lenN bs); intros [H|H]; discriminate.
Qed.
Lemma bad_mapr {A B} (f : A -> B) r : bad (mapr f r) -> bad r.
Proof. unfold bad. destruct r; cbn; intuition congruence. Qed.

Lemma small_loop_not_bad el :
  (forall bs, bytes_ok bs -> ~ bad (el bs) /\ rpost (fun _ rest => suffix rest bs) (el bs)) ->
  forall fuel bs, bytes_ok bs -> ~ bad (small_loop fuel el bs).
Proof.
  intros Hel. induction fuel as [|fuel IH]; intros bs Hok; [intros [H|H]; discriminate|].
  cbn [small_loop]. destruct (Hel bs Hok) as [Hb Hp].
  destruct (el bs) as [v rest|[]| | |]; simpl in Hp; try (intros [H|H]; discriminate); auto.
  - intros H. apply bad_mapr in H. revert H. apply IH. eapply suffix_ok; eauto.
  - exfalso. apply Hb. now left.
  - exfalso. apply Hb. now right.
Qed.

Lemma small_elem_not_bad lim e psz bs : sized_element e = false -> is_unit e = false -> bytes_ok bs ->
  ~ bad (decode lim e false psz bs).
Proof.
  intros He Hu Hok Hb.
  destruct e; try discriminate; cbn [decode] in Hb; apply bad_mapr in Hb; revert Hb;
    (now apply dec_u64_not_bad) || now apply dec_f64_not_bad.
Qed.

Lemma has_cause_all lim : forall t, ty_wf t -> has_cause lim t.
Proof.
  induction t as [| | | | | | |t IH|fs IH|fs IH] using ty_ind'; intros Hwf isf psz bs r Hok Hr E.
  - cbn in E. subst r. destruct Hr; discriminate.
  - exfalso. cbn [decode] in E. subst r. apply bad_mapr in Hr. revert Hr. apply dec_f64_not_bad.
  - exfalso. cbn [decode] in E. subst r. apply bad_mapr in Hr. revert Hr. now apply dec_u64_not_bad.
  - exfalso. cbn [decode] in E. subst r. apply bad_mapr in Hr. revert Hr. now apply dec_u64_not_bad.
  - exfalso. cbn [decode] in E. subst r. apply bad_mapr in Hr. revert Hr. now apply dec_u64_not_bad.
  - cbn [decode] in E. unfold reserve in E. destruct (lim <? psz) eqn:El; [|subst r; destruct Hr; discriminate].
    exists TBytes, isf, psz, bs. split; [constructor|]. left. split; [auto|cbn; lia].
  - cbn [decode] in E. unfold reserve in E. destruct (lim <? psz) eqn:El.
    + exists TString, isf, psz, bs. split; [constructor|]. left. split; [auto|cbn; lia].
    + destruct (utf8_decode bs); subst r; destruct Hr; discriminate.
  - cbn [ty_wf] in Hwf.
    assert (is_unit t = false -> sized_element t = false ->
      ~ bad (mapr VArr (small_loop (S (length bs)) (fun bs => decode lim t false 0 bs) bs))) as Hsmall.
    { intros Hu Hse Hb. apply bad_mapr in Hb. revert Hb. apply small_loop_not_bad; [|exact Hok].
      intros bs' Hok'. split; [now apply small_elem_not_bad|].
      eapply rpost_weaken; [apply (decode_post lim t Hwf false 0 bs' Hok')|]. simpl. tauto. }
    destruct (sized_element t) eqn:Hse.
    + (* induction on the length of the input *)
      remember (length bs) as n eqn:En. assert (length bs <= n)%nat as Hn by lia. clear En Hsmall.
      revert bs Hok E Hn. induction n as [|n IHn]; intros bs Hok E Hn.
      * destruct bs; [|cbn in Hn; lia]. exfalso. assert (exists v, decode lim (TArray t) isf psz [] = Ok v []) as [v Ev].
        { exists (VArr []). destruct t; try discriminate; reflexivity. }
        rewrite Ev in E. subst r. destruct Hr; discriminate.
      * pose proof (array_step lim t isf psz bs Hwf Hok Hse) as Hs.
        pose proof (proj1 (varint_post bs Hok)) as Hvp.
        destruct (deserialize_varint bs) as [sz rest|e| | |] eqn:Ev;
          try (destruct Hs as [v Hs]; rewrite Hs in E; subst r; destruct Hr; discriminate).
        destruct Hs as [Hokr Hs]. simpl in Hvp. destruct Hvp as [Hps _]. apply psuffix_length in Hps.
        destruct (decode lim t false sz (takeN sz rest)) as [v left|e2| | |] eqn:Ed.
        -- pose proof (decode_dec_ok lim t false Hwf sz (takeN sz rest) (bytes_ok_takeN _ _ Hokr)) as Hl.
           rewrite Ed in Hl. simpl in Hl. destruct Hl as [Hl _]. apply suffix_take_drop in Hl.
           pose proof (suffix_length _ _ Hl).
           apply Hs in E; [|exact Hr].
           destruct (IHn _ (suffix_ok _ _ Hl Hokr) E ltac:(lia)) as (t' & isf' & psz' & bs' & Hv & Hc).
           exists t', isf', psz', bs'. split; [|exact Hc]. eapply visit_next_element; eauto.
        -- destruct Hs as [e3 Hs]. rewrite Hs in E. subst r. destruct Hr; discriminate.
        -- assert (r = Panic) as -> by congruence.
           destruct (IH Hwf false sz (takeN sz rest) Panic (bytes_ok_takeN _ _ Hokr) Hr Ed) as (t' & isf' & psz' & bs' & Hv & Hc).
           exists t', isf', psz', bs'. split; [|exact Hc]. eapply visit_element; eauto.
        -- assert (r = Diverge) as -> by congruence.
           destruct (IH Hwf false sz (takeN sz rest) Diverge (bytes_ok_takeN _ _ Hokr) Hr Ed) as (t' & isf' & psz' & bs' & Hv & Hc).
           exists t', isf', psz', bs'. split; [|exact Hc]. eapply visit_element; eauto.
        -- contradiction.
    + destruct t; try discriminate; cbn [decode] in E; cbn [decode is_unit] in Hsmall.
      * exfalso. subst r. apply bad_mapr in Hr. revert Hr. now apply dec_u64_not_bad.
      * unfold reserve in E. destruct (lim <? 8 * psz) eqn:El.
        -- exists (TArray TF64), isf, psz, bs. split; [constructor|]. left. split; [auto|cbn; lia].
        -- exfalso. apply Hsmall; auto. now rewrite E.
      * exfalso. apply Hsmall; auto. now rewrite E.
      * exfalso. apply Hsmall; auto. now rewrite E.
      * exfalso. apply Hsmall; auto. now rewrite E.
  - pose proof Hwf as [Hnd Hwf']. apply allP_Forall in Hwf'. rewrite Forall_forall in IH.
    remember (length bs) as n eqn:En. assert (length bs <= n)%nat as Hn by lia. clear En.
    revert bs Hok E Hn. induction n as [|n IHn]; intros bs Hok E Hn.
    + destruct bs; [|cbn in Hn; lia]. exfalso.
      assert (decode lim (TStruct fs) isf psz [] = if missing_required fs [] then Err InvalidData
        else Ok (VStruct (map (fun f => @assoc val (f_index f) []) fs)) []) as E0 by reflexivity.
      rewrite E0 in E. destruct (missing_required fs []); subst r; destruct Hr; discriminate.
    + destruct (header_post bs Hok) as (Hp & Hnp & Hnd2 & Hni).
      destruct (deserialize_field_header bs) as [[i sz] rest|[]| | |] eqn:Eh; try congruence;
        [| |contradiction].
      * destruct (struct_step lim fs isf psz bs i sz rest Hwf' Hok Eh) as [Hokr Hs].
        simpl in Hp. destruct Hp as (Hps & _ & _). apply psuffix_length in Hps.
        destruct (find_field i fs) as [f|] eqn:Ef.
        -- pose proof (find_field_in _ _ _ Ef) as [Hin _].
           assert (ty_wf (f_type f)) as Htf by (rewrite Forall_forall in Hwf'; now apply Hwf').
           destruct (decode lim (f_type f) true sz (takeN sz rest)) as [v left|e2| | |] eqn:Ed.
           ++ pose proof (decode_dec_ok lim (f_type f) true Htf sz (takeN sz rest) (bytes_ok_takeN _ _ Hokr)) as Hl.
              rewrite Ed in Hl. simpl in Hl. destruct Hl as [Hl _]. apply suffix_take_drop in Hl.
              pose proof (suffix_length _ _ Hl). apply Hs in E; [|exact Hr].
              destruct (IHn _ (suffix_ok _ _ Hl Hokr) E ltac:(lia)) as (t' & isf' & psz' & bs' & Hv & Hc).
              exists t', isf', psz', bs'. split; [|exact Hc]. eapply visit_struct_next; eauto.
           ++ destruct Hs as [e3 Hs]. rewrite Hs in E. subst r. destruct Hr; discriminate.
           ++ assert (r = Panic) as -> by congruence.
              destruct (IH f Hin Htf true sz (takeN sz rest) Panic (bytes_ok_takeN _ _ Hokr) Hr Ed) as (t' & isf' & psz' & bs' & Hv & Hc).
              exists t', isf', psz', bs'. split; [|exact Hc]. eapply visit_struct_field; eauto.
           ++ assert (r = Diverge) as -> by congruence.
              destruct (IH f Hin Htf true sz (takeN sz rest) Diverge (bytes_ok_takeN _ _ Hokr) Hr Ed) as (t' & isf' & psz' & bs' & Hv & Hc).
              exists t', isf', psz', bs'. split; [|exact Hc]. eapply visit_struct_field; eauto.
           ++ contradiction.
        -- destruct (sz <=? lenN rest) eqn:El.
           ++ apply Hs in E; [|exact Hr]. pose proof (length_dropN sz rest).
              destruct (IHn _ (bytes_ok_dropN sz _ Hokr) E ltac:(lia)) as (t' & isf' & psz' & bs' & Hv & Hc).
              exists t', isf', psz', bs'. split; [|exact Hc]. eapply visit_struct_skip; eauto. lia.
           ++ exists (TStruct fs), isf, psz, bs. split; [constructor|]. right. split; [congruence|].
              cbn. exists i, sz, rest. repeat split; auto. lia.
      * exfalso. cbn [decode] in E. fold (sds lim fs) in E. cbn [struct_loop] in E. rewrite Eh in E.
        cbn [bindr] in E. destruct (missing_required fs []); subst r; destruct Hr; discriminate.
  - pose proof Hwf as [Hnd Hwf']. apply allP_Forall in Hwf'. rewrite Forall_forall in IH.
    remember (length bs) as n eqn:En. assert (length bs <= n)%nat as Hn by lia. clear En.
    revert bs Hok E Hn. induction n as [|n IHn]; intros bs Hok E Hn.
    + destruct bs; [|cbn in Hn; lia]. exfalso.
      assert (decode lim (TChoice fs) isf psz [] = Err EOF) as E0 by reflexivity.
      rewrite E0 in E. subst r; destruct Hr; discriminate.
    + destruct (header_post bs Hok) as (Hp & Hnp & Hnd2 & Hni).
      destruct (deserialize_field_header bs) as [[i sz] rest|[]| | |] eqn:Eh; try congruence;
        [| |contradiction].
      * destruct (choice_step lim fs isf psz bs i sz rest Hwf' Hok Eh) as [Hokr Hs].
        simpl in Hp. destruct Hp as (Hps & _ & _). apply psuffix_length in Hps.
        destruct (find_field i fs) as [f|] eqn:Ef.
        -- pose proof (find_field_in _ _ _ Ef) as [Hin _].
           assert (ty_wf (f_type f)) as Htf by (rewrite Forall_forall in Hwf'; now apply Hwf').
           destruct (decode lim (f_type f) true sz (takeN sz rest)) as [v left|e2| | |] eqn:Ed.
           ++ pose proof (decode_dec_ok lim (f_type f) true Htf sz (takeN sz rest) (bytes_ok_takeN _ _ Hokr)) as Hl.
              rewrite Ed in Hl. simpl in Hl. destruct Hl as [Hl _]. apply suffix_take_drop in Hl.
              pose proof (suffix_length _ _ Hl).
              destruct (f_rule f) eqn:Er;
                try (destruct Hs as [w Hs]; rewrite Hs in E; subst r; destruct Hr; discriminate).
              apply Hs in E; [|exact Hr].
              destruct (IHn _ (suffix_ok _ _ Hl Hokr) E ltac:(lia)) as (t' & isf' & psz' & bs' & Hv & Hc).
              exists t', isf', psz', bs'. split; [|exact Hc]. eapply visit_choice_fallback; eauto.
           ++ destruct Hs as [e3 Hs]. rewrite Hs in E. subst r. destruct Hr; discriminate.
           ++ assert (r = Panic) as -> by congruence.
              destruct (IH f Hin Htf true sz (takeN sz rest) Panic (bytes_ok_takeN _ _ Hokr) Hr Ed) as (t' & isf' & psz' & bs' & Hv & Hc).
              exists t', isf', psz', bs'. split; [|exact Hc]. eapply visit_choice_case; eauto.
           ++ assert (r = Diverge) as -> by congruence.
              destruct (IH f Hin Htf true sz (takeN sz rest) Diverge (bytes_ok_takeN _ _ Hokr) Hr Ed) as (t' & isf' & psz' & bs' & Hv & Hc).
              exists t', isf', psz', bs'. split; [|exact Hc]. eapply visit_choice_case; eauto.
           ++ contradiction.
        -- destruct (sz <=? lenN rest) eqn:El.
           ++ rewrite Hs in E. pose proof (length_dropN sz rest).
              destruct (IHn _ (bytes_ok_dropN sz _ Hokr) E ltac:(lia)) as (t' & isf' & psz' & bs' & Hv & Hc).
              exists t', isf', psz', bs'. split; [|exact Hc]. eapply visit_choice_skip; eauto. lia.
           ++ exists (TChoice fs), isf, psz, bs. split; [constructor|]. right. split; [congruence|].
              cbn. exists i, sz, rest. repeat split; auto. lia.
      * exfalso. cbn [decode] in E. fold (cds lim fs) in E. cbn [choice_loop] in E. rewrite Eh in E.
        cbn [bindr] in E. subst r; destruct Hr; discriminate.
Qed.

Lemma oversized_panics lim t isf psz bs : oversized lim t psz -> decode lim t isf psz bs = Panic.
Proof.
  destruct t as [| | | | | | |e| |]; try contradiction; cbn [oversized decode]; unfold reserve.
  - intros H. now replace (lim <? psz) with true by lia.
  - intros H. now replace (lim <? psz) with true by lia.
  - destruct e; try contradiction. intros H. now replace (lim <? 8 * psz) with true by lia.
Qed.
Lemma truncated_diverges lim t isf psz bs : ty_wf t -> bytes_ok bs -> truncated_unknown t bs ->
  decode lim t isf psz bs = Diverge.
Proof.
  intros Hwf Hok. destruct t as [| | | | | | | |fs|fs]; try contradiction;
    intros (i & sz & rest & Hh & Ef & Hl); pose proof Hwf as [Hnd Hwf']; apply allP_Forall in Hwf'.
  - destruct (struct_step lim fs isf psz bs i sz rest Hwf' Hok Hh) as [_ Hs]. rewrite Ef in Hs.
    now replace (sz <=? lenN rest) with false in Hs by lia.
  - destruct (choice_step lim fs isf psz bs i sz rest Hwf' Hok Hh) as [_ Hs]. rewrite Ef in Hs.
    now replace (sz <=? lenN rest) with false in Hs by lia.
Qed.

Lemma panic_iff lim t bs : ty_wf t -> bytes_ok bs ->
  deserialize lim t bs = Panic <->
  exists t' isf' psz' bs', visits lim t true (lenN bs) bs t' isf' psz' bs' /\ oversized lim t' psz'.
Proof.
  intros Hwf Hok. split.
  - intros E. destruct (has_cause_all lim t Hwf true (lenN bs) bs Panic Hok (or_introl eq_refl) E)
      as (t' & isf' & psz' & bs' & Hv & [[_ Hc]|[Hc _]]); [|discriminate]. eauto 6.
  - intros (t' & isf' & psz' & bs' & Hv & Ho).
    destruct (visits_bad _ _ _ _ _ _ _ _ _ Hv Hwf Hok) as (_ & _ & H).
    apply H; [now left|]. now apply oversized_panics.
Qed.
Lemma diverge_iff lim t bs : ty_wf t -> bytes_ok bs ->
  deserialize lim t bs = Diverge <->
  exists t' isf' psz' bs', visits lim t true (lenN bs) bs t' isf' psz' bs' /\ truncated_unknown t' bs'.
Proof.
  intros Hwf Hok. split.
  - intros E. destruct (has_cause_all lim t Hwf true (lenN bs) bs Diverge Hok (or_intror eq_refl) E)
      as (t' & isf' & psz' & bs' & Hv & [[Hc _]|[_ Hc]]); [discriminate|]. eauto 6.
  - intros (t' & isf' & psz' & bs' & Hv & Ho).
    destruct (visits_bad _ _ _ _ _ _ _ _ _ Hv Hwf Hok) as (H1 & H2 & H).
    apply H; [now right|]. now apply truncated_diverges.
Qed.

(** ** The declared size behind a panic is in the input *)
Definition infix (a b : bytes) : Prop := exists p q, b = p ++ a ++ q.
Lemma infix_refl a : infix a a.
Proof. exists [], []. now rewrite app_nil_r. Qed.
Lemma infix_trans a b c : infix a b -> infix b c -> infix a c.
Proof.
  intros (p & q & ->) (p' & q' & ->). exists (p' ++ p), (q ++ q'). now rewrite <- !app_assoc.
Qed.
Lemma infix_suffix a b : suffix a b -> infix a b.
Proof. intros [p ->]. exists p, []. now rewrite app_nil_r. Qed.
Lemma infix_takeN n b : infix (takeN n b) b.
Proof. exists [], (dropN n b). symmetry. apply take_drop. Qed.

Definition declares (n : N) (bs : bytes) : Prop := n <= 9 \/ n < 72624976668147840 \/
  exists pre rest, bs = pre ++ spec_varint n ++ rest.

Lemma declares_infix n a b : infix a b -> declares n a -> declares n b.
Proof.
  intros (p & q & ->) [H|[H|(pre & rest & ->)]]; [now left|right; now left|right; right].
  exists (p ++ pre), (rest ++ q). now rewrite <- !app_assoc.
Qed.

Lemma varint_declares bs n rest : bytes_ok bs -> deserialize_varint bs = Ok n rest ->
  declares n bs /\ suffix rest bs.
Proof.
  intros Hok E. split.
  - destruct (varint_decode_total bs Hok) as [(n' & r' & E' & _ & [H|[H _]])|[E' _]];
      rewrite E in E'; try discriminate; injection E' as <- <-.
    + right. right. exists [], rest. exact H.
    + right. now left.
  - pose proof (proj1 (varint_post bs Hok)) as Hp. rewrite E in Hp. simpl in Hp.
    destruct Hp as [Hp _]. now apply psuffix_suffix.
Qed.

Lemma header_declares bs i n rest : bytes_ok bs -> deserialize_field_header bs = Ok (i, n) rest ->
  declares n bs /\ suffix rest bs.
Proof.
  intros Hok E. split.
  - unfold deserialize_field_header in E.
    destruct (deserialize_varint bs) as [tag bs1|e| | |] eqn:Ev; cbn [bindr] in E; try discriminate.
    destruct (varint_declares bs tag bs1 Hok Ev) as [_ Hs].
    destruct (N.land tag 3 =? 0); [injection E as _ <- _; left; lia|].
    destruct (N.land tag 3 =? 1); [injection E as _ <- _; left; lia|].
    destruct (N.land tag 3 =? 2).
    + destruct bs1 as [|b bs1]; [discriminate|]. injection E as _ <- _.
      pose proof (size_from_first_byte_range b). left. lia.
    + destruct (deserialize_varint bs1) as [sz bs2|e| | |] eqn:Ev2; cbn [bindr] in E; try discriminate.
      injection E as _ <- _. apply (declares_infix _ bs1); [now apply infix_suffix|].
      apply (varint_declares bs1 sz bs2); auto. eapply suffix_ok; eauto.
  - pose proof (proj1 (header_post bs Hok)) as Hp. rewrite E in Hp. simpl in Hp.
    destruct Hp as [Hp _]. now apply psuffix_suffix.
Qed.

Lemma visits_declares lim t isf psz bs t' isf' psz' bs' :
  visits lim t isf psz bs t' isf' psz' bs' -> ty_wf t -> bytes_ok bs ->
  psz' = psz \/ declares psz' bs.
Proof.
  assert (forall fs i f, ty_wf (TStruct fs) -> find_field i fs = Some f -> ty_wf (f_type f)) as Hff.
  { intros fs i f [_ Hwf] Ef. apply allP_Forall in Hwf. rewrite Forall_forall in Hwf.
    apply find_field_in in Ef as [Hin _]. now apply Hwf. }
  induction 1 as
    [t isf psz bs
    |fs isf psz bs i sz rest t' isf' psz' bs' Hh Ef Hle Hv IH
    |fs isf psz bs i sz rest f t' isf' psz' bs' Hh Ef Hv IH
    |fs isf psz bs i sz rest f v left t' isf' psz' bs' Hh Ef Hd Hv IH
    |fs isf psz bs i sz rest t' isf' psz' bs' Hh Ef Hle Hv IH
    |fs isf psz bs i sz rest f t' isf' psz' bs' Hh Ef Hv IH
    |fs isf psz bs i sz rest f v left t' isf' psz' bs' Hh Ef Hr Hd Hv IH
    |e isf psz bs sz rest t' isf' psz' bs' He Hh Hv IH
    |e isf psz bs sz rest v left t' isf' psz' bs' He Hh Hd Hv IH]; intros Ht Hok; auto;
    (destruct (header_declares bs i sz rest Hok Hh) as [Hdec Hsuf] ||
     destruct (varint_declares bs sz rest Hok Hh) as [Hdec Hsuf]);
    assert (bytes_ok rest) as Hokr by (eapply suffix_ok; eauto).
  - destruct (IH Ht (bytes_ok_dropN _ _ Hokr)) as [H|H]; [now left|right].
    eapply declares_infix; [|exact H]. eapply infix_trans; [apply infix_suffix, suffix_dropN|].
    now apply infix_suffix.
  - right. destruct (IH (Hff _ _ _ Ht Ef) (bytes_ok_takeN _ _ Hokr)) as [->|H]; [exact Hdec|].
    eapply declares_infix; [|exact H]. eapply infix_trans; [apply infix_takeN|]. now apply infix_suffix.
  - pose proof (decode_dec_ok lim (f_type f) true (Hff _ _ _ Ht Ef) sz (takeN sz rest) (bytes_ok_takeN _ _ Hokr)) as Hl.
    rewrite Hd in Hl. simpl in Hl. destruct Hl as [Hl _]. apply suffix_take_drop in Hl.
    destruct (IH Ht (suffix_ok _ _ Hl Hokr)) as [H|H]; [now left|right].
    eapply declares_infix; [|exact H]. eapply infix_trans; [apply infix_suffix; exact Hl|]. now apply infix_suffix.
  - destruct (IH Ht (bytes_ok_dropN _ _ Hokr)) as [H|H]; [now left|right].
    eapply declares_infix; [|exact H]. eapply infix_trans; [apply infix_suffix, suffix_dropN|].
    now apply infix_suffix.
  - right. destruct (IH (Hff _ _ _ Ht Ef) (bytes_ok_takeN _ _ Hokr)) as [->|H]; [exact Hdec|].
    eapply declares_infix; [|exact H]. eapply infix_trans; [apply infix_takeN|]. now apply infix_suffix.
  - pose proof (decode_dec_ok lim (f_type f) true (Hff _ _ _ Ht Ef) sz (takeN sz rest) (bytes_ok_takeN _ _ Hokr)) as Hl.
    rewrite Hd in Hl. simpl in Hl. destruct Hl as [Hl _]. apply suffix_take_drop in Hl.
    destruct (IH Ht (suffix_ok _ _ Hl Hokr)) as [H|H]; [now left|right].
    eapply declares_infix; [|exact H]. eapply infix_trans; [apply infix_suffix; exact Hl|]. now apply infix_suffix.
  - right. destruct (IH Ht (bytes_ok_takeN _ _ Hokr)) as [->|H]; [exact Hdec|].
    eapply declares_infix; [|exact H]. eapply infix_trans; [apply infix_takeN|]. now apply infix_suffix.
  - pose proof (decode_dec_ok lim e false Ht sz (takeN sz rest) (bytes_ok_takeN _ _ Hokr)) as Hl.
    rewrite Hd in Hl. simpl in Hl. destruct Hl as [Hl _]. apply suffix_take_drop in Hl.
    destruct (IH Ht (suffix_ok _ _ Hl Hokr)) as [H|H]; [now left|right].
    eapply declares_infix; [|exact H]. eapply infix_trans; [apply infix_suffix; exact Hl|]. now apply infix_suffix.
Qed.

(** A panic needs an input that spells out a size of at least 2^60, in nine bytes. *)
Lemma panic_needs_huge_size t bs : user_defined t -> ty_wf t -> bytes_ok bs -> lenN bs < 2 ^ 60 ->
  deserialize isize_max t bs = Panic ->
  exists pre n rest, bs = pre ++ spec_varint n ++ rest /\ 2 ^ 60 <= n.
Proof.
  intros Hu Hwf Hok Hl E. apply (panic_iff _ _ _ Hwf Hok) in E as (t' & isf' & psz' & bs' & Hv & Ho).
  assert (2 ^ 60 <= psz') as Hbig.
  { change (2 ^ 60) with 1152921504606846976. unfold oversized, isize_max in Ho.
    destruct t' as [| | | | | | |e| |]; try contradiction; try lia. destruct e; try contradiction. lia. }
  destruct (visits_declares _ _ _ _ _ _ _ _ _ Hv Hwf Hok) as [H|[H|[H|(pre & rest & H)]]].
  - lia.
  - change (2 ^ 60) with 1152921504606846976 in *. lia.
  - change (2 ^ 60) with 1152921504606846976 in *. lia.
  - exists pre, psz', rest. auto.
Qed.
