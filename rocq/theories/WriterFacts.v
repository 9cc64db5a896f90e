From Verif Require Export Writer SerializeFacts BaseFacts.

Fixpoint calls_bytes (cs : list call) : option bytes :=
  match cs with
  | [] => Some []
  | CWrite b :: cs' => omap (app b) (calls_bytes cs')
  | CPanicked :: _ => None
  end.

Lemma calls_app a b : calls_bytes (a ++ b) = app_opt (calls_bytes a) (calls_bytes b).
Proof.
  induction a as [|[buf|] a IH]; cbn [app calls_bytes].
  - unfold app_opt. cbn. destruct (calls_bytes b); cbn; now rewrite ?app_nil_r.
  - rewrite IH. unfold app_opt. cbn. destruct (calls_bytes a); cbn; [|reflexivity].
    destruct (calls_bytes b); cbn; [|reflexivity]. now rewrite !app_nil_r, app_assoc.
  - reflexivity.
Qed.
Lemma cat_app o l : cat_opt (o :: l) = app_opt o (cat_opt l).
Proof. unfold app_opt. cbn. destruct o; [|reflexivity]. destruct (cat_opt l); cbn; [|reflexivity]. now rewrite app_nil_r. Qed.
Lemma calls_concat l : calls_bytes (concat l) = cat_opt (map calls_bytes l).
Proof. induction l as [|c l IH]; [reflexivity|]. cbn [concat map]. now rewrite calls_app, cat_app, IH. Qed.

Lemma varint_calls_ok n : calls_bytes (varint_calls n) = Some (serialize_varint n).
Proof. cbn. now rewrite app_nil_r. Qed.
Lemma header_calls_ok i s ie : calls_bytes (header_calls i s ie) = Some (serialize_field_header i s ie).
Proof.
  unfold header_calls, serialize_field_header.
  destruct (s =? 0); [apply varint_calls_ok|]. destruct (s =? 8); [apply varint_calls_ok|].
  destruct ie; [apply varint_calls_ok|]. rewrite calls_app, !varint_calls_ok. unfold app_opt. cbn.
  now rewrite app_nil_r.
Qed.
Lemma u64_calls_ok isf n : calls_bytes (u64_calls isf n) = Some (ser_u64 isf n).
Proof.
  unfold u64_calls, ser_u64. destruct isf; [|apply varint_calls_ok].
  destruct (n =? 0); [reflexivity|]. destruct (n <=? _); [apply varint_calls_ok|].
  cbn [calls_bytes omap]. now rewrite app_nil_r.
Qed.
Lemma one_call b : calls_bytes [CWrite b] = Some b.
Proof. cbn. now rewrite app_nil_r. Qed.

Lemma map2_calls {A B} (f : A -> B -> list call) (g : A -> B -> option bytes) :
  forall l1 l2, Forall (fun x => forall y, calls_bytes (f x y) = g x y) l1 ->
  map calls_bytes (map2 f l1 l2) = map2 g l1 l2.
Proof.
  induction l1 as [|x l1 IH]; intros [|y l2] H; try reflexivity. inversion H; subst.
  cbn. rewrite IH by auto. f_equal. auto.
Qed.

Lemma ser_calls_ok : forall v isf t a, calls_bytes (ser_calls isf v t a) = ser isf v t a.
Proof.
  induction v as [|b|n|z|b|bs|s|n|vs IH|ovs IH|i p fb IHp IHfb] using val_ind';
    intros isf t a; destruct t as [| | | | | | |e|fs|fs]; try reflexivity; cbn [ser_calls ser];
    try apply one_call; try apply u64_calls_ok.
  - destruct isf; [|apply one_call]. destruct (negb _); [apply one_call|reflexivity].
  - destruct e; try reflexivity. apply u64_calls_ok.
  - assert (forall a, calls_bytes (concat (map (fun v => ser_calls false v e a) vs))
              = cat_opt (map (fun v => ser false v e a) vs)) as H1.
    { intros a0. rewrite calls_concat, map_map. f_equal. apply map_ext_Forall.
      eapply Forall_impl; [|exact IH]. intros v Hv. apply Hv. }
    assert (forall l, calls_bytes (concat (map2 (fun v pa =>
                varint_calls (atlas_lookup pa) ++ ser_calls false v e pa) vs l))
              = cat_opt (map2 (fun v pa =>
                app_opt (Some (serialize_varint (atlas_lookup pa))) (ser false v e pa)) vs l)) as H2.
    { intros l. rewrite calls_concat. f_equal. apply map2_calls.
      eapply Forall_impl; [|exact IH]. intros v Hv pa. rewrite calls_app, varint_calls_ok. now rewrite Hv. }
    destruct e; try apply H1; destruct a; try reflexivity; apply H2.
  - destruct a; try reflexivity. rewrite calls_concat. f_equal. apply map2_calls.
    eapply Forall_impl; [|exact IH]. intros [v|] Hv [f [pa|]]; try reflexivity. cbn [fst snd].
    rewrite calls_app, header_calls_ok. f_equal. apply Hv.
  - destruct (find_field i fs) as [f|]; [|reflexivity]. destruct a as [| | |j n pa fa]; try reflexivity.
    destruct (i =? j); [|reflexivity]. rewrite calls_app, calls_app, header_calls_ok, IHp. f_equal.
    destruct (f_rule f); try reflexivity; destruct fb as [v'|]; try reflexivity; destruct fa; try reflexivity; apply IHfb.
Qed.

(** ** Running the calls *)
Definition prefix (p l : bytes) : Prop := exists q, l = p ++ q.

Ltac nilp := rewrite ?(app_nil_r (A:=N)); repeat split; try reflexivity; try discriminate.
Section Run.
  Context {W : Type} (w : writer W).
  Lemma write_all_spec : forall fuel st out buf,
    let '(s, st', out') := write_all w fuel st out buf in
    exists p q, buf = p ++ q /\ out' = out ++ p /\
      match s with WOk => q = [] | WPanicked => False | _ => q <> [] end.
  Proof.
    induction fuel as [|fuel IH]; intros st out buf; destruct buf as [|b buf]; cbn [write_all].
    - exists [], []; nilp.
    - exists [], (b :: buf); nilp.
    - exists [], []; nilp.
    - destruct (w st (b :: buf)) as [[n| |] st'].
      + destruct (n =? 0); [exists [], (b :: buf); nilp|].
        specialize (IH st' (out ++ takeN n (b :: buf)) (dropN n (b :: buf))).
        destruct (write_all w fuel st' _ _) as [[s st2] out2]. destruct IH as (p & q & E & -> & H).
        exists (takeN n (b :: buf) ++ p), q. rewrite <- app_assoc, <- E, take_drop. now rewrite app_assoc.
      + apply IH.
      + exists [], (b :: buf); nilp.
  Qed.

  Lemma run_calls_spec : forall cs fuel st out bs, calls_bytes cs = Some bs ->
    let '(s, st', out') := run_calls w fuel st out cs in
    exists p q, bs = p ++ q /\ out' = out ++ p /\
      match s with WOk => q = [] | WPanicked => False | _ => q <> [] end.
  Proof.
    induction cs as [|[buf|] cs IH]; intros fuel st out bs E; cbn [run_calls calls_bytes] in *; try discriminate.
    - injection E as <-. exists [], []; nilp.
    - destruct (calls_bytes cs) as [bs'|] eqn:E'; [|discriminate]. injection E as <-.
      pose proof (write_all_spec fuel st out buf) as H.
      destruct (write_all w fuel st out buf) as [[s st'] out']. destruct H as (p & q & -> & -> & H).
      destruct s; try contradiction.
      + subst q. specialize (IH fuel st' (out ++ p) bs' eq_refl).
        destruct (run_calls w fuel st' (out ++ p) cs) as [[s2 st2] out2]. destruct IH as (p2 & q2 & -> & -> & H2).
        exists (p ++ p2), q2. now rewrite app_nil_r, !app_assoc.
      + exists p, (q ++ bs'). rewrite app_assoc. repeat split; auto. destruct q; [congruence|discriminate].
      + exists p, (q ++ bs'). rewrite app_assoc. repeat split; auto. destruct q; [congruence|discriminate].
  Qed.

  Lemma serialize_to_spec v t bs fuel st : serialize v t = Some bs ->
    let '(s, _, out) := serialize_to w fuel st v t in
    s <> WPanicked /\ prefix out bs /\ (s = WOk <-> out = bs).
  Proof.
    intros E. unfold serialize in E. rewrite <- ser_calls_ok in E.
    pose proof (run_calls_spec _ fuel st [] bs E) as H. unfold serialize_to.
    destruct (run_calls w fuel st [] _) as [[s st'] out]. destruct H as (p & q & -> & -> & H). cbn [app].
    assert (p = p ++ q <-> q = []) as Hiff.
    { split; [|intros ->; now rewrite app_nil_r]. intros Ep.
      apply (f_equal (@length N)) in Ep. rewrite app_length in Ep. destruct q; [reflexivity|]. cbn in Ep. lia. }
    split; [destruct s; easy|]. split; [now exists q|]. rewrite Hiff. destruct s; split; intros H'; try easy.
  Qed.

  (** A writer that never asks to be called again in vain. *)
  Definition never_interrupts : Prop := forall st buf, fst (w st buf) <> Interrupted.
  Lemma write_all_ends : never_interrupts -> forall fuel st out buf, (length buf <= fuel)%nat ->
    fst (fst (write_all w fuel st out buf)) <> WRunning.
  Proof.
    intros Hw. induction fuel as [|fuel IH]; intros st out [|b buf] H; cbn [write_all length] in *; try easy; try lia.
    specialize (Hw st (b :: buf)). destruct (w st (b :: buf)) as [[n| |] st']; cbn [fst] in *; try easy.
    destruct (n =? 0) eqn:En; [easy|]. apply IH. cbn [dropN]. rewrite En.
    pose proof (length_dropN (n - 1) buf). rewrite ?En. lia.
  Qed.
  Lemma run_calls_ends : never_interrupts -> forall cs fuel st out bs, calls_bytes cs = Some bs ->
    (length bs <= fuel)%nat -> fst (fst (run_calls w fuel st out cs)) <> WRunning.
  Proof.
    intros Hw. induction cs as [|[buf|] cs IH]; intros fuel st out bs E Hf; cbn [run_calls calls_bytes] in *; try easy.
    destruct (calls_bytes cs) as [bs'|] eqn:E'; [|discriminate]. injection E as <-. rewrite app_length in Hf.
    pose proof (write_all_ends Hw fuel st out buf ltac:(lia)) as H.
    destruct (write_all w fuel st out buf) as [[s st'] out']. cbn in H. destruct s; try easy.
    apply (IH fuel st' out' bs'); auto. lia.
  Qed.
End Run.

(** The capacity writer: exactly the first [capacity] bytes. *)
Lemma capacity_write_all : forall fuel c out buf, (length buf <= fuel)%nat ->
  write_all capacity_writer fuel c out buf =
    (if lenN buf <=? c then WOk else WFailed, c - lenN buf, out ++ takeN c buf).
Proof.
  induction fuel as [|fuel IH]; intros c out [|b buf] H; cbn [write_all length] in *; try lia.
  - rewrite lenN_nil, app_nil_r. replace (0 <=? c) with true by lia. do 2 f_equal. lia.
  - rewrite lenN_nil, app_nil_r. replace (0 <=? c) with true by lia. do 2 f_equal. lia.
  - unfold capacity_writer at 1. cbv zeta. set (n := N.min c (lenN (b :: buf))).
    destruct (n =? 0) eqn:En.
    + assert (c = 0) as -> by (unfold n in En; rewrite lenN_cons in En; lia).
      rewrite lenN_cons. replace (1 + lenN buf <=? 0) with false by lia.
      rewrite takeN_0, app_nil_r. do 2 f_equal; lia.
    + rewrite IH.
      2:{ cbn [dropN]. rewrite En. pose proof (length_dropN (n - 1) buf). lia. }
      assert (n <= lenN (b :: buf) /\ n <= c) as [Hn1 Hn2] by (unfold n; lia).
      rewrite lenN_dropN. 
      destruct (N.le_gt_cases (lenN (b :: buf)) c) as [Hc|Hc].
      * assert (n = lenN (b :: buf)) as Hn by (unfold n; lia).
        replace (lenN (b :: buf) - n <=? c - n) with true by lia.
        replace (lenN (b :: buf) <=? c) with true by lia.
        rewrite <- app_assoc. f_equal; [f_equal; lia|]. f_equal.
        rewrite (takeN_all n) by lia. rewrite (takeN_all c) by lia.
        rewrite (dropN_all n) by lia. cbn [takeN]. now rewrite app_nil_r.
      * assert (n = c) as Hn by (unfold n; lia). rewrite Hn.
        replace (lenN (b :: buf) - c <=? c - c) with false by lia.
        replace (lenN (b :: buf) <=? c) with false by lia.
        rewrite N.sub_diag, takeN_0, app_nil_r. f_equal. f_equal. lia.
Qed.
Lemma takeN_app_split {A} c (a b : list A) : takeN c (a ++ b) = takeN c a ++ takeN (c - lenN a) b.
Proof.
  rewrite !takeN_firstn, firstn_app. do 2 f_equal. unfold lenN. lia.
Qed.
Lemma capacity_run : forall cs fuel c out bs, calls_bytes cs = Some bs -> (length bs <= fuel)%nat ->
  exists c', run_calls capacity_writer fuel c out cs =
    (if lenN bs <=? c then WOk else WFailed, c', out ++ takeN c bs).
Proof.
  induction cs as [|[buf|] cs IH]; intros fuel c out bs E Hf; cbn [run_calls calls_bytes] in *; try discriminate.
  - injection E as <-. rewrite lenN_nil. cbn [takeN]. rewrite app_nil_r.
    replace (0 <=? c) with true by lia. eauto.
  - destruct (calls_bytes cs) as [bs'|] eqn:E'; [|discriminate]. injection E as <-. rewrite app_length in Hf.
    rewrite capacity_write_all by lia. rewrite takeN_app_split, lenN_app.
    destruct (lenN buf <=? c) eqn:Eb.
    + destruct (IH fuel (c - lenN buf) (out ++ takeN c buf) bs' eq_refl ltac:(lia)) as [c' ->].
      exists c'. rewrite <- app_assoc. f_equal. f_equal.
      destruct (lenN bs' <=? c - lenN buf) eqn:E1, (lenN buf + lenN bs' <=? c) eqn:E2; lia || reflexivity.
    + replace (lenN buf + lenN bs' <=? c) with false by lia.
      replace (c - lenN buf) with 0 by lia. rewrite takeN_0, app_nil_r. eauto.
Qed.
Lemma capacity_serialize v t bs fuel k : serialize v t = Some bs -> (length bs <= fuel)%nat ->
  exists k', serialize_to capacity_writer fuel k v t =
    (if lenN bs <=? k then WOk else WFailed, k', takeN k bs).
Proof.
  intros E Hf. unfold serialize in E. rewrite <- ser_calls_ok in E. exact (capacity_run _ fuel k [] bs E Hf).
Qed.
Lemma serialize_to_ends {W} (w : writer W) v t bs fuel st : never_interrupts w ->
  serialize v t = Some bs -> (length bs <= fuel)%nat ->
  fst (fst (serialize_to w fuel st v t)) <> WRunning.
Proof.
  intros Hw E Hf. unfold serialize in E. rewrite <- ser_calls_ok in E. exact (run_calls_ends w Hw _ fuel st [] bs E Hf).
Qed.
