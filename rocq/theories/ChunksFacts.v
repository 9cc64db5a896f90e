From Verif Require Export Chunks FieldsFacts.

(** The bytes a reader will still deliver. *)
Fixpoint flat (r : reader) : bytes :=
  match r with
  | RBase cs => concat cs
  | RTake limit inner => takeN limit (flat inner)
  end.

Fixpoint rok (r : reader) : Prop :=
  match r with
  | RBase cs => Forall (fun c => c <> []) cs /\ bytes_ok (concat cs)
  | RTake _ inner => rok inner
  end.

(** [r'] is [r] after [k] bytes were taken, at every level. *)
Fixpoint adv (k : N) (r r' : reader) : Prop :=
  match r, r' with
  | RBase cs, RBase cs' => concat cs' = dropN k (concat cs)
  | RTake l i, RTake l' i' => k <= l /\ l' = l - k /\ adv k i i'
  | _, _ => False
  end.

Lemma flat_ok r : rok r -> bytes_ok (flat r).
Proof. induction r; cbn; [tauto|]. intros H. apply bytes_ok_takeN; auto. Qed.

Lemma dropN_dropN {A} a b (l : list A) : dropN a (dropN b l) = dropN (a + b) l.
Proof.
  revert a b. induction l as [|x l IH]; intros a b; [reflexivity|]. cbn [dropN].
  destruct (b =? 0) eqn:Eb.
  - assert (b = 0) as -> by lia. rewrite N.add_0_r. reflexivity.
  - replace (a + b =? 0) with false by lia. rewrite IH. f_equal. lia.
Qed.
Lemma takeN_dropN {A} a b (l : list A) : takeN a (dropN b l) = dropN b (takeN (a + b) l).
Proof.
  rewrite !dropN_skipn, !takeN_firstn. rewrite firstn_skipn_comm. f_equal. f_equal. lia.
Qed.

Lemma adv_flat : forall r r' k, adv k r r' -> flat r' = dropN k (flat r).
Proof.
  induction r as [cs|l i IH]; intros [cs'|l' i'] k H; try contradiction; cbn in *; [exact H|].
  destruct H as (Hk & -> & H). rewrite (IH _ _ H), takeN_dropN. f_equal. f_equal. lia.
Qed.
Lemma adv_0 r : adv 0 r r.
Proof. induction r; cbn; [now rewrite dropN_0|]. repeat split; auto; lia. Qed.
Lemma adv_trans : forall a b c k j, adv k a b -> adv j b c -> adv (k + j) a c.
Proof.
  induction a as [cs|l i IH]; intros [cs'|l' i'] [cs2|l2 i2] k j H1 H2; try contradiction; cbn in *.
  - rewrite H2, H1, dropN_dropN. f_equal. lia.
  - destruct H1 as (H1 & -> & H1'), H2 as (H2 & -> & H2'). repeat split; try lia. eauto.
Qed.

(** [r'] is a reader that results from using [r]. *)
Definition after (r r' : reader) : Prop := rok r' /\ exists k, adv k r r'.
Lemma after_refl r : rok r -> after r r.
Proof. intros H. split; [exact H|]. exists 0. apply adv_0. Qed.
Lemma after_trans a b c : after a b -> after b c -> after a c.
Proof. intros [_ [k H1]] [H [j H2]]. split; [exact H|]. exists (k + j). eapply adv_trans; eauto. Qed.
Lemma after_length a b : after a b -> (length (flat b) <= length (flat a))%nat.
Proof. intros [_ [k H]]. rewrite (adv_flat _ _ _ H). apply length_dropN. Qed.

Lemma fill_prefix r : rok r -> exists tl, flat r = fill_buf r ++ tl.
Proof.
  induction r as [[|c cs]|l i IH]; intros H; cbn in *; eauto.
  destruct (IH H) as [tl E]. rewrite E. destruct (l =? 0) eqn:El.
  - assert (l = 0) as -> by lia. rewrite takeN_0. now exists [].
  - rewrite !takeN_firstn, firstn_app. eauto.
Qed.
Lemma fill_nil r : rok r -> fill_buf r = [] <-> flat r = [].
Proof.
  induction r as [[|c cs]|l i IH]; intros H; cbn in *.
  - tauto.
  - destruct H as [H _]. inversion H; subst. destruct c; [congruence|]. split; discriminate.
  - specialize (IH H). destruct (l =? 0) eqn:El.
    + assert (l = 0) as -> by lia. now rewrite takeN_0.
    + destruct (fill_buf i) as [|x b], (flat i) as [|y f]; cbn; rewrite ?El; try tauto; try easy.
      * destruct IH as [IH _]. now discriminate IH.
      * destruct IH as [_ IH]. now discriminate IH.
Qed.

Lemma consume_spec : forall r n, rok r -> n <= lenN (fill_buf r) ->
  rok (consume n r) /\ adv n r (consume n r).
Proof.
  induction r as [[|c cs]|l i IH]; intros n H Hn; cbn in *.
  - rewrite lenN_nil in Hn. assert (n = 0) as -> by lia. auto.
  - destruct H as [H Hok]. inversion H as [|? ? Hc Hcs]; subst. apply bytes_ok_app in Hok as [Hok1 Hok2].
    destruct (lenN c <=? n) eqn:E.
    + assert (n = lenN c) as -> by lia. cbn. rewrite dropN_app. auto.
    + cbn. split.
      * split; [constructor; [|exact Hcs]|].
        -- intros Hd. apply (f_equal lenN) in Hd. rewrite lenN_dropN, lenN_nil in Hd. lia.
        -- apply bytes_ok_app. split; [now apply bytes_ok_dropN|exact Hok2].
      * rewrite !dropN_skipn, skipn_app. unfold lenN in *.
        replace (N.to_nat n - length c)%nat with 0%nat by lia. reflexivity.
  - destruct (l =? 0) eqn:El.
    + rewrite lenN_nil in Hn. assert (l = 0) as -> by lia. assert (n = 0) as -> by lia.
      destruct (IH 0 H ltac:(lia)). auto.
    + rewrite lenN_takeN in Hn. replace (N.min n l) with n by lia.
      destruct (IH n H ltac:(lia)). repeat split; auto; lia.
Qed.

Lemma read_spec : forall r n, rok r -> n <> 0 ->
  let (b, r') := read n r in
  b = takeN n (fill_buf r) /\ rok r' /\ adv (lenN b) r r'.
Proof.
  induction r as [[|c cs]|l i IH]; intros n H Hn; cbn [read fill_buf] in *.
  - rewrite lenN_nil. split; [reflexivity|]. split; [exact H|apply adv_0].
  - destruct H as [H Hok]. inversion H as [|? ? Hc Hcs]; subst. cbn [concat] in Hok.
    apply bytes_ok_app in Hok as [Hok1 Hok2].
    destruct (lenN c <=? n) eqn:E.
    + rewrite takeN_all by lia. cbn. rewrite dropN_app. auto.
    + split; [reflexivity|]. rewrite lenN_takeN. replace (N.min n (lenN c)) with n by lia. cbn. split.
      * split; [constructor; [|exact Hcs]|].
        -- intros Hd. apply (f_equal lenN) in Hd. rewrite lenN_dropN, lenN_nil in Hd. lia.
        -- apply bytes_ok_app. split; [now apply bytes_ok_dropN|exact Hok2].
      * rewrite !dropN_skipn, skipn_app. unfold lenN in *.
        replace (N.to_nat n - length c)%nat with 0%nat by lia. reflexivity.
  - destruct (l =? 0) eqn:El.
    + split; [destruct n; reflexivity|]. split; [exact H|]. rewrite lenN_nil. apply adv_0.
    + specialize (IH (N.min n l) H ltac:(lia)). destruct (read (N.min n l) i) as [b i'].
      destruct IH as (-> & H1 & H2). split; [|split; [exact H1|]].
      * rewrite !takeN_firstn, firstn_firstn. f_equal. lia.
      * cbn. repeat split; auto. rewrite lenN_takeN. lia.
Qed.

Lemma read_after r n : rok r -> n <> 0 ->
  let (b, r') := read n r in
  after r r' /\ flat r = b ++ flat r' /\ lenN b <= n /\ (b = [] <-> flat r = []).
Proof.
  intros H Hn. pose proof (read_spec r n H Hn) as Hr. destruct (read n r) as [b r'].
  destruct Hr as (Hb & Hok & Ha). split; [split; eauto|].
  pose proof (adv_flat _ _ _ Ha) as Hf. destruct (fill_prefix r H) as [tl Et].
  assert (exists tl2, flat r = b ++ tl2) as [tl2 E2].
  { exists (dropN n (fill_buf r) ++ tl). rewrite Et, Hb, app_assoc, take_drop. reflexivity. }
  split; [|split].
  - rewrite Hf, E2, dropN_app. reflexivity.
  - rewrite Hb, lenN_takeN. lia.
  - rewrite <- (fill_nil r H). rewrite Hb. destruct (fill_buf r) as [|x f]; cbn; [tauto|].
    replace (n =? 0) with false by lia. split; discriminate.
Qed.

(** ** Relation between the two models *)
Definition cstrong {A} (r : reader) (x : res A) (y : cres A) : Prop :=
  match x, y with
  | Ok a rest, COk b r' => a = b /\ after r r' /\ flat r' = rest
  | Err EOF, CErr EOF r' => after r r' /\ flat r' = []
  | Err InvalidData, CErr InvalidData _ => True
  | Panic, CPanic => True
  | Diverge, COutOfFuel => True
  | _, _ => False
  end.
Definition cweak {A} (r : reader) (x : res A) (y : cres A) : Prop :=
  match x, y with
  | Ok a rest, COk b r' => a = b /\ after r r' /\ flat r' = rest
  | Err e, CErr e' _ => e = e'
  | Panic, CPanic => True
  | Diverge, COutOfFuel => True
  | _, _ => False
  end.
Lemma strong_weak {A} r (x : res A) y : cstrong r x y -> cweak r x y.
Proof. destruct x as [|[]| | |], y as [|[]| |]; cbn; tauto. Qed.

Lemma strong_after {A} r0 r (x : res A) y : after r0 r -> cstrong r x y -> cstrong r0 x y.
Proof.
  intros Ha. destruct x as [|[]| | |], y as [|[]| |]; cbn; try tauto.
  - intros (-> & H & H2). split; [reflexivity|]. split; [eapply after_trans; eauto|exact H2].
  - intros (H & H2). split; auto. eapply after_trans; eauto.
Qed.
Lemma weak_after {A} r0 r (x : res A) y : after r0 r -> cweak r x y -> cweak r0 x y.
Proof.
  intros Ha. destruct x as [|[]| | |], y as [|[]| |]; cbn; try tauto.
  intros (-> & H & H2). split; [reflexivity|]. split; [eapply after_trans; eauto|exact H2].
Qed.

Lemma strong_bind {A B} r (x : res A) y (k : A -> bytes -> res B) (k' : A -> reader -> cres B) :
  cstrong r x y ->
  (forall a r', after r r' -> cstrong r' (k a (flat r')) (k' a r')) ->
  cstrong r (bindr x k) (cbind y k').
Proof.
  intros H Hk. destruct x as [a rest|[]| | |], y as [b r'|[]| |]; cbn in *; try tauto.
  destruct H as (-> & Ha & <-). eapply strong_after; [exact Ha|auto].
Qed.
Lemma weak_bind {A B} r (x : res A) y (k : A -> bytes -> res B) (k' : A -> reader -> cres B) :
  cweak r x y ->
  (forall a r', after r r' -> cweak r' (k a (flat r')) (k' a r')) ->
  cweak r (bindr x k) (cbind y k').
Proof.
  intros H Hk. destruct x as [a rest|e| | |], y as [b r'|e'| |]; cbn in *; try tauto.
  destruct H as (-> & Ha & <-). eapply weak_after; [exact Ha|auto].
Qed.
Lemma strong_map {A B} (f : A -> B) r x y : cstrong r x y -> cstrong r (mapr f x) (cmap f y).
Proof.
  destruct x as [a rest|[]| | |], y as [b r'|[]| |]; cbn in *; try tauto. intros (-> & H). auto.
Qed.
Lemma weak_map {A B} (f : A -> B) r x y : cweak r x y -> cweak r (mapr f x) (cmap f y).
Proof.
  destruct x as [a rest|e| | |], y as [b r'|e'| |]; cbn in *; try tauto. intros (-> & H). auto.
Qed.
Lemma strong_ok {A} r (a : A) : rok r -> cstrong r (Ok a (flat r)) (COk a r).
Proof. intros H. cbn. repeat split; auto. exists 0. apply adv_0. Qed.

(** ** The loops of std *)
Lemma cread_exact_spec : forall fuel n acc r, rok r -> (length (flat r) < fuel)%nat ->
  match cread_exact fuel n acc r with
  | COk b r' => n <= lenN (flat r) /\ b = acc ++ takeN n (flat r) /\ after r r' /\ flat r' = dropN n (flat r)
  | CErr EOF r' => lenN (flat r) < n /\ after r r' /\ flat r' = []
  | _ => False
  end.
Proof.
  induction fuel as [|fuel IH]; intros n acc r H Hf; [lia|]. cbn [cread_exact].
  destruct (n =? 0) eqn:En.
  - assert (n = 0) as -> by lia. rewrite takeN_0, dropN_0, app_nil_r.
    split; [lia|]. split; [reflexivity|]. split; [now apply after_refl|reflexivity].
  - pose proof (read_after r n H ltac:(lia)) as Hr. destruct (read n r) as [b r'].
    destruct Hr as (Ha & Hfl & Hl & Hnil). destruct b as [|x b].
    + assert (flat r = []) as E by tauto. rewrite E in *. rewrite lenN_nil.
      split; [lia|]. split; [exact Ha|]. now symmetry.
    + assert (length (flat r') < fuel)%nat as Hf' by (rewrite Hfl in Hf; cbn in Hf; rewrite app_length in Hf; lia).
      specialize (IH (n - lenN (x :: b)) (acc ++ x :: b) r' (proj1 Ha) Hf').
      destruct (cread_exact fuel (n - lenN (x :: b)) (acc ++ x :: b) r') as [b2 r2|[] r2| |]; try contradiction.
      * destruct IH as (H1 & -> & H2 & H3). rewrite Hfl. rewrite lenN_app.
        split; [lia|]. split; [|split].
        -- rewrite <- app_assoc. f_equal. rewrite !takeN_firstn, firstn_app.
           rewrite (firstn_all2 (n := N.to_nat n)) by (unfold lenN in *; lia). f_equal. f_equal.
           unfold lenN in *. lia.
        -- eapply after_trans; eauto.
        -- rewrite H3. rewrite !dropN_skipn, skipn_app.
           rewrite (skipn_all2 (n := N.to_nat n) (x :: b)) by (unfold lenN in *; lia). cbn [app].
           f_equal. unfold lenN in *. lia.
      * destruct IH as (H1 & H2 & H3). rewrite Hfl, lenN_app. split; [lia|]. split; [|exact H3].
        eapply after_trans; eauto.
Qed.

Lemma cread_exact_strong F n r : rok r -> (length (flat r) < F)%nat ->
  cstrong r (read_exact n (flat r)) (cread_exact F n [] r).
Proof.
  intros H Hf. pose proof (cread_exact_spec F n [] r H Hf) as Hs. unfold read_exact.
  destruct (cread_exact F n [] r) as [b r'|[] r'| |]; try contradiction.
  - destruct Hs as (H1 & -> & H2 & H3). replace (n <=? lenN (flat r)) with true by lia. cbn.
    repeat split; auto; apply H2.
  - destruct Hs as (H1 & H2 & H3). replace (n <=? lenN (flat r)) with false by lia. cbn. auto.
Qed.

Lemma cread_to_end_spec : forall fuel acc r, rok r -> (length (flat r) < fuel)%nat ->
  exists r', cread_to_end fuel acc r = COk (acc ++ flat r) r' /\ after r r' /\ flat r' = [].
Proof.
  induction fuel as [|fuel IH]; intros acc r H Hf; [lia|]. cbn [cread_to_end].
  pose proof (read_after r 32 H ltac:(lia)) as Hr. destruct (read 32 r) as [b r'].
  destruct Hr as (Ha & Hfl & Hl & Hnil). destruct b as [|x b].
  - assert (flat r = []) as E by tauto. rewrite E in *. rewrite app_nil_r. eauto.
  - assert (length (flat r') < fuel)%nat as Hf' by (rewrite Hfl in Hf; cbn in Hf; rewrite app_length in Hf; lia).
    destruct (IH (acc ++ x :: b) r' (proj1 Ha) Hf') as (r2 & -> & H2 & H3).
    exists r2. split; [|split; [eapply after_trans; eauto|exact H3]].
    now rewrite Hfl, <- app_assoc.
Qed.

Lemma cskip_strong : forall fuel n r, rok r -> (length (flat r) < fuel)%nat ->
  cstrong r (skip n (flat r)) (cskip fuel n r).
Proof.
  induction fuel as [|fuel IH]; intros n r H Hf; [lia|]. cbn [cskip].
  destruct (n =? 0) eqn:En.
  - assert (n = 0) as -> by lia. unfold skip. replace (0 <=? lenN (flat r)) with true by lia.
    rewrite dropN_0. now apply strong_ok.
  - set (m := N.min (lenN (fill_buf r)) n).
    destruct (consume_spec r m H ltac:(lia)) as [Hok Ha].
    destruct (fill_buf r) as [|x b] eqn:Eb.
    + (* exhausted: spin *)
      assert (flat r = []) as E by (now apply fill_nil). rewrite E.
      unfold m in *. rewrite lenN_nil in *. replace (N.min 0 n) with 0 in * by lia.
      unfold skip. rewrite lenN_nil. replace (n <=? 0) with false by lia.
      assert (forall f r, rok r -> flat r = [] -> cskip f n r = COutOfFuel) as Hspin.
      { clear - En. induction f as [|f IHf]; intros r H E; [reflexivity|]. cbn [cskip]. rewrite En.
        assert (fill_buf r = []) as Eb by (now apply fill_nil). rewrite Eb, lenN_nil.
        replace (N.min 0 n) with 0 by lia. rewrite N.sub_0_r.
        destruct (consume_spec r 0 H ltac:(lia)) as [Hok Ha]. apply IHf; [exact Hok|].
        rewrite (adv_flat _ _ _ Ha), E. reflexivity. }
      rewrite N.sub_0_r. rewrite Hspin; [exact I|exact Hok|].
      rewrite (adv_flat _ _ _ Ha), E. reflexivity.
    + assert (1 <= m) as Hm by (unfold m; rewrite lenN_cons; lia).
      destruct (fill_prefix r H) as [tl Et]. rewrite Eb in Et.
      assert (lenN (x :: b) <= lenN (flat r)) as Hle by (rewrite Et, lenN_app; lia).
      pose proof (adv_flat _ _ _ Ha) as Hfl.
      assert (length (flat (consume m r)) < fuel)%nat as Hf'.
      { rewrite Hfl. pose proof (lenN_dropN m (flat r)). unfold lenN in *. lia. }
      specialize (IH (n - m) (consume m r) Hok Hf'). unfold skip in *. rewrite Hfl in IH.
      rewrite lenN_dropN, dropN_dropN in IH. replace (n - m + m) with n in IH by lia.
      replace (n <=? lenN (flat r)) with (n - m <=? lenN (flat r) - m) by lia.
      eapply strong_after; [|exact IH]. split; eauto.
Qed.

Lemma cfinish_strong : forall fuel r, rok r -> (length (flat r) < fuel)%nat ->
  cstrong r (finish (flat r)) (cfinish fuel r).
Proof.
  induction fuel as [|fuel IH]; intros r H Hf; [lia|]. cbn [cfinish]. cbv zeta.
  destruct (fill_buf r) as [|x b] eqn:Eb.
  - assert (flat r = []) as E by (now apply fill_nil). cbn. repeat split; auto. exists 0. apply adv_0.
  - destruct (consume_spec r (lenN (x :: b)) H ltac:(rewrite Eb; lia)) as [Hok Ha].
    pose proof (adv_flat _ _ _ Ha) as Hfl. destruct (fill_prefix r H) as [tl Et]. rewrite Eb in Et.
    rewrite Et, dropN_app in Hfl.
    assert (length (flat (consume (lenN (x :: b)) r)) < fuel)%nat as Hf'.
    { rewrite Hfl. rewrite Et in Hf. cbn in Hf. rewrite app_length in Hf. lia. }
    specialize (IH _ Hok Hf'). eapply strong_after; [|exact IH]. split; eauto.
Qed.

Lemma deserialize_varint_parts bs : deserialize_varint bs =
  bindr (read_exact 1 bs) (fun fb bs1 =>
    bindr (read_exact (trailing_zeros (nth 0 fb 0)) bs1) (fun buf rest =>
      varint_of_parts (nth 0 fb 0) buf rest)).
Proof. reflexivity. Qed.

Lemma varint_of_parts_strong r fb buf : rok r ->
  cstrong r (varint_of_parts fb buf (flat r)) (cret (varint_of_parts fb buf []) r).
Proof.
  intros H. pose proof (fun A a => @strong_ok A r a H) as Hs. unfold varint_of_parts, checked_add64.
  repeat match goal with |- context [if ?c then _ else _] => destruct c end; try apply Hs; exact I.
Qed.

Lemma cvarint_strong F r : rok r -> (length (flat r) < F)%nat ->
  cstrong r (deserialize_varint (flat r)) (cdeserialize_varint F r).
Proof.
  intros H Hf. rewrite deserialize_varint_parts. unfold cdeserialize_varint.
  apply strong_bind; [now apply cread_exact_strong|]. intros fb r1 Ha.
  pose proof (after_length _ _ Ha). apply strong_bind; [apply cread_exact_strong; [apply Ha|lia]|].
  intros buf r2 Ha2. apply varint_of_parts_strong. apply Ha2.
Qed.

Lemma cheader_strong F r : rok r -> (length (flat r) < F)%nat ->
  cstrong r (deserialize_field_header (flat r)) (cdeserialize_field_header F r).
Proof.
  intros H Hf. unfold deserialize_field_header, cdeserialize_field_header.
  apply strong_bind; [now apply cvarint_strong|]. intros tag r1 Ha. pose proof (after_length _ _ Ha).
  destruct (N.land tag 3 =? 0); [apply strong_ok, Ha|].
  destruct (N.land tag 3 =? 1); [apply strong_ok, Ha|].
  destruct (N.land tag 3 =? 2).
  - destruct (fill_prefix r1 (proj1 Ha)) as [tl Et]. pose proof (fill_nil r1 (proj1 Ha)) as Hn.
    destruct (fill_buf r1) as [|b f].
    + assert (flat r1 = []) as E by tauto. rewrite E. cbn. split; [apply after_refl, Ha|exact E].
    + rewrite Et at 1. cbn [app]. apply strong_ok, Ha.
  - apply strong_bind; [apply cvarint_strong; [apply Ha|lia]|]. intros sz r2 Ha2. apply strong_ok, Ha2.
Qed.

Lemma cdec_u64_strong F isf psz r : rok r -> (length (flat r) < F)%nat ->
  cstrong r (dec_u64 isf psz (flat r)) (cdec_u64 F isf psz r).
Proof.
  intros H Hf. pose proof (cvarint_strong F r H Hf) as Hv. unfold dec_u64, cdec_u64.
  destruct isf; [|exact Hv]. destruct (psz =? 0); [now apply strong_ok|].
  destruct (psz =? 8); [|exact Hv].
  apply strong_bind; [now apply cread_exact_strong|]. intros b r1 Ha. apply strong_ok, Ha.
Qed.
Lemma cdec_f64_strong F isf psz r : rok r -> (length (flat r) < F)%nat ->
  cstrong r (dec_f64 isf psz (flat r)) (cdec_f64 F isf psz r).
Proof.
  intros H Hf. unfold dec_f64, cdec_f64. destruct (isf && (psz =? 0)); [now apply strong_ok|].
  apply strong_bind; [now apply cread_exact_strong|]. intros b r1 Ha. apply strong_ok, Ha.
Qed.

(** Leaving a [take]-limited sub-reader. *)
Lemma untake_after sz r1 r2 : after (RTake sz r1) r2 ->
  after r1 (untake r2) /\ flat r2 ++ dropN sz (flat r1) = flat (untake r2).
Proof.
  intros [Hok [k Ha]]. destruct r2 as [cs|l i]; [contradiction|]. cbn in *.
  destruct Ha as (Hk & -> & Ha). split; [split; eauto|].
  rewrite (adv_flat _ _ _ Ha), takeN_dropN. replace (sz - k + k) with sz by lia.
  rewrite <- (take_drop sz (flat r1)) at 3. rewrite !dropN_skipn, skipn_app.
  rewrite !takeN_firstn.
  destruct (Nat.le_gt_cases (N.to_nat k) (length (firstn (N.to_nat sz) (flat r1)))) as [Hle|Hgt].
  - replace (N.to_nat k - _)%nat with 0%nat by lia. reflexivity.
  - rewrite firstn_length in Hgt. assert (length (flat r1) < N.to_nat sz)%nat by lia.
    rewrite (skipn_all2 (flat r1)) by lia. destruct (N.to_nat k - _)%nat; reflexivity.
Qed.

(** ** The loops of the generated code *)
Lemma csmall_strong el cel :
  (forall bs, bytes_ok bs -> rpost (fun v rest => psuffix rest bs) (el bs)) ->
  forall F, (forall r, rok r -> (length (flat r) < F)%nat -> cstrong r (el (flat r)) (cel r)) ->
  forall fuel r, rok r -> (length (flat r) < fuel)%nat -> (fuel <= F)%nat ->
  cweak r (small_loop fuel el (flat r)) (csmall_loop fuel cel r).
Proof.
  intros Hpost F Hel. induction fuel as [|fuel IH]; intros r H Hf HF; [lia|].
  cbn [small_loop csmall_loop]. pose proof (Hel r H ltac:(lia)) as He.
  pose proof (Hpost (flat r) (flat_ok r H)) as Hp.
  destruct (el (flat r)) as [v rest|[]| | |], (cel r) as [v' r'|[] r'| |]; cbn in He; try contradiction;
    try exact I; try reflexivity.
  - destruct He as (<- & Ha & <-). apply weak_map. eapply weak_after; [exact Ha|].
    simpl in Hp. apply psuffix_length in Hp. apply IH; [apply Ha|lia|lia].
  - destruct He as (Ha & He). cbn. repeat split; auto; apply Ha.
Qed.

Definition decs_ok (F : nat) (d : decoder) (cd : cdecoder) : Prop :=
  forall sz r, rok r -> (length (flat r) < F)%nat -> cweak r (d sz (flat r)) (cd sz r).

Lemma take_length sz r : (length (flat (RTake sz r)) <= length (flat r))%nat.
Proof. cbn. apply length_takeN. Qed.

Lemma csized_weak F d cd : dec_ok (fun _ => True) d -> decs_ok F d cd ->
  forall fuel r, rok r -> (length (flat r) < fuel)%nat -> (fuel <= F)%nat ->
  cweak r (sized_loop fuel d (flat r)) (csized_loop F fuel cd r).
Proof.
  intros Hpost Hd. induction fuel as [|fuel IH]; intros r H Hf HF; [lia|].
  cbn [sized_loop csized_loop]. pose proof (cvarint_strong F r H ltac:(lia)) as Hv.
  pose proof (proj1 (varint_post (flat r) (flat_ok r H))) as Hp.
  destruct (deserialize_varint (flat r)) as [sz rest|[]| | |],
    (cdeserialize_varint F r) as [sz' r1|[] r1| |]; cbn in Hv; try contradiction; try exact I; try reflexivity.
  - destruct Hv as (<- & Ha & Erest). subst rest. simpl in Hp. destruct Hp as [Hp _].
    apply psuffix_length in Hp. pose proof (take_length sz r1) as Htl.
    eapply weak_after; [exact Ha|].
    pose proof (Hd sz (RTake sz r1) (proj1 Ha) ltac:(lia)) as He. cbn [flat] in He.
    pose proof (Hpost sz (takeN sz (flat r1)) (bytes_ok_takeN _ _ (flat_ok r1 (proj1 Ha)))) as Hpd.
    destruct (d sz (takeN sz (flat r1))) as [v lft|e| | |], (cd sz (RTake sz r1)) as [v' r2|e' r2| |];
      cbn in He; try contradiction; cbn [bindr cbind]; try exact I; [|exact He].
    destruct He as (<- & Ha2 & <-). destruct (untake_after _ _ _ Ha2) as [Ha3 ->].
    apply weak_map. eapply weak_after; [exact Ha3|]. pose proof (after_length _ _ Ha3).
    apply IH; [apply Ha3|lia|lia].
  - destruct Hv as (Ha & Hv). cbn. repeat split; auto; apply Ha.
Qed.

Lemma cstruct_weak F ds cds :
  (forall i d, assoc i ds = Some d -> dec_ok (fun _ => True) d) ->
  (forall i, match assoc i ds, assoc i cds with
             | Some d, Some cd => decs_ok F d cd
             | None, None => True
             | _, _ => False end) ->
  forall fuel slots r, rok r -> (length (flat r) < fuel)%nat -> (fuel <= F)%nat ->
  cweak r (struct_loop fuel ds slots (flat r)) (cstruct_loop F fuel cds slots r).
Proof.
  intros Hpost Hd. induction fuel as [|fuel IH]; intros slots r H Hf HF; [lia|].
  cbn [struct_loop cstruct_loop]. pose proof (cheader_strong F r H ltac:(lia)) as Hv.
  pose proof (proj1 (header_post (flat r) (flat_ok r H))) as Hp.
  destruct (deserialize_field_header (flat r)) as [[i sz] rest|[]| | |],
    (cdeserialize_field_header F r) as [h' r1|[] r1| |]; cbn in Hv; try contradiction; try exact I; try reflexivity.
  - destruct Hv as (<- & Ha & Erest). subst rest. simpl in Hp. destruct Hp as [Hp _].
    apply psuffix_length in Hp. pose proof (take_length sz r1) as Htl.
    eapply weak_after; [exact Ha|]. specialize (Hd i).
    destruct (assoc i ds) as [d|] eqn:Ed, (assoc i cds) as [cd|]; try contradiction.
    + pose proof (Hd sz (RTake sz r1) (proj1 Ha) ltac:(lia)) as He. cbn [flat] in He.
      destruct (d sz (takeN sz (flat r1))) as [v lft|e| | |], (cd sz (RTake sz r1)) as [v' r2|e' r2| |];
        cbn in He; try contradiction; cbn [bindr cbind]; try exact I; [|exact He].
      destruct He as (<- & Ha2 & <-). destruct (untake_after _ _ _ Ha2) as [Ha3 ->].
      eapply weak_after; [exact Ha3|]. pose proof (after_length _ _ Ha3).
      apply IH; [apply Ha3|lia|lia].
    + pose proof (cskip_strong F sz (RTake sz r1) (proj1 Ha) ltac:(lia)) as He. cbn [flat] in He.
      destruct (skip sz (takeN sz (flat r1))) as [v lft|[]| | |], (cskip F sz (RTake sz r1)) as [v' r2|[] r2| |];
        cbn in He; try contradiction; cbn [bindr cbind]; try exact I; try reflexivity.
      destruct He as (_ & Ha2 & <-). destruct (untake_after _ _ _ Ha2) as [Ha3 ->].
      eapply weak_after; [exact Ha3|]. pose proof (after_length _ _ Ha3).
      apply IH; [apply Ha3|lia|lia].
  - destruct Hv as (Ha & Hv). cbn. repeat split; auto; apply Ha.
Qed.

Lemma cchoice_weak F ds cds :
  (forall i ru d, assoc i ds = Some (ru, d) -> dec_ok (fun _ => True) d) ->
  (forall i, match assoc i ds, assoc i cds with
             | Some (ru, d), Some (ru', cd) => ru = ru' /\ decs_ok F d cd
             | None, None => True
             | _, _ => False end) ->
  forall fuel r, rok r -> (length (flat r) < fuel)%nat -> (fuel <= F)%nat ->
  cweak r (choice_loop fuel ds (flat r)) (cchoice_loop F fuel cds r).
Proof.
  intros Hpost Hd. induction fuel as [|fuel IH]; intros r H Hf HF; [lia|].
  cbn [choice_loop cchoice_loop]. pose proof (cheader_strong F r H ltac:(lia)) as Hv.
  pose proof (proj1 (header_post (flat r) (flat_ok r H))) as Hp.
  destruct (deserialize_field_header (flat r)) as [[i sz] rest|[]| | |],
    (cdeserialize_field_header F r) as [h' r1|[] r1| |]; cbn in Hv; try contradiction;
    cbn [bindr cbind]; try exact I; try reflexivity.
  destruct Hv as (<- & Ha & Erest). subst rest. simpl in Hp. destruct Hp as [Hp _].
  apply psuffix_length in Hp. pose proof (take_length sz r1) as Htl.
  eapply weak_after; [exact Ha|]. specialize (Hd i).
  destruct (assoc i ds) as [[ru d]|] eqn:Ed, (assoc i cds) as [[ru' cd]|]; try contradiction.
  - destruct Hd as [<- Hd].
    pose proof (Hd sz (RTake sz r1) (proj1 Ha) ltac:(lia)) as He. cbn [flat] in He.
    destruct (d sz (takeN sz (flat r1))) as [v lft|e| | |], (cd sz (RTake sz r1)) as [v' r2|e' r2| |];
      cbn in He; try contradiction; cbn [bindr cbind]; try exact I; [|exact He].
    destruct He as (<- & Ha2 & <-). destruct (untake_after _ _ _ Ha2) as [Ha3 Efl].
    pose proof (after_length _ _ Ha3). cbv zeta. rewrite Efl.
    eapply weak_after; [exact Ha3|].
    assert (cweak (untake r2) (bindr (finish (flat (untake r2))) (fun _ rest2 => Ok (VChoice i v None) rest2))
      (cbind (cfinish F (untake r2)) (fun _ r3 => COk (VChoice i v None) r3))) as Hfin.
    { apply weak_bind; [apply strong_weak, cfinish_strong; [apply Ha3|lia]|].
      intros _ r3 Ha4. apply strong_weak, strong_ok, Ha4. }
    destruct ru; try exact Hfin.
    apply weak_bind; [apply IH; [apply Ha3|lia|lia]|].
    intros fb r3 Ha4. apply strong_weak, strong_ok, Ha4.
  - pose proof (cskip_strong F sz (RTake sz r1) (proj1 Ha) ltac:(lia)) as He. cbn [flat] in He.
    destruct (skip sz (takeN sz (flat r1))) as [v lft|[]| | |], (cskip F sz (RTake sz r1)) as [v' r2|[] r2| |];
      cbn in He; try contradiction; cbn [bindr cbind]; try exact I; try reflexivity.
    destruct He as (_ & Ha2 & <-). destruct (untake_after _ _ _ Ha2) as [Ha3 ->].
    eapply weak_after; [exact Ha3|]. pose proof (after_length _ _ Ha3).
    apply IH; [apply Ha3|lia|lia].
Qed.

Lemma creserve_weak {A} lim n r (x : res A) y : cweak r x y -> cweak r (reserve lim n x) (creserve lim n y).
Proof. intros H. unfold reserve, creserve. now destruct (lim <? n). Qed.

Lemma cdecode_weak F lim : forall t, ty_wf t -> forall isf psz r,
  rok r -> (length (flat r) < F)%nat ->
  cweak r (decode lim t isf psz (flat r)) (cdecode F lim t isf psz r).
Proof.
  induction t as [| | | | | | |t IH|fs IH|fs IH] using ty_ind'; intros Hwf isf psz r H Hf;
    cbn [decode cdecode].
  - apply strong_weak, strong_ok, H.
  - apply strong_weak, strong_map. now apply cdec_f64_strong.
  - apply strong_weak, strong_map. now apply cdec_u64_strong.
  - apply strong_weak, strong_map. now apply cdec_u64_strong.
  - apply strong_weak, strong_map. now apply cdec_u64_strong.
  - apply creserve_weak. destruct (cread_to_end_spec F [] r H Hf) as (r' & -> & Ha & Hn). cbn.
    repeat split; auto; apply Ha.
  - apply creserve_weak. destruct (cread_to_end_spec F [] r H Hf) as (r' & -> & Ha & Hn). cbn.
    destruct (utf8_decode (flat r)); cbn; repeat split; auto; apply Ha.
  - cbn [ty_wf] in Hwf. specialize (IH Hwf).
    assert (is_unit t = false -> sized_element t = false ->
      cweak r (mapr VArr (small_loop (S (length (flat r))) (fun bs => decode lim t false 0 bs) (flat r)))
        (cmap VArr (csmall_loop F (fun r => cdecode F lim t false 0 r) r))) as Hsmall.
    { intros Hu Hse. apply weak_map.
      assert (forall bs, bytes_ok bs -> rpost (fun v rest => psuffix rest bs) (decode lim t false 0 bs)) as Hpost.
      { intros bs Hok. eapply rpost_weaken; [apply (decode_post lim t Hwf false 0 bs Hok)|].
        simpl. intros v rest (_ & _ & Hps). auto. }
      rewrite (small_loop_fuel (fun bs => decode lim t false 0 bs) Hpost (S (length (flat r))) F (flat r) (flat_ok r H)) by lia.
      apply (csmall_strong (fun bs => decode lim t false 0 bs) _ Hpost F); auto.
      intros r' H' Hf'. destruct t; try discriminate; cbn [decode cdecode]; apply strong_map;
        (now apply cdec_u64_strong) || now apply cdec_f64_strong. }
    assert (sized_element t = true ->
      cweak r (mapr VArr (sized_loop (S (length (flat r))) (decode lim t false) (flat r)))
        (cmap VArr (csized_loop F F (cdecode F lim t false) r))) as Hbig.
    { intros Hse. apply weak_map.
      rewrite (sized_loop_fuel (decode lim t false) (decode_dec_ok lim t false Hwf)
                 (S (length (flat r))) F (flat r) (flat_ok r H)) by lia.
      apply csized_weak; auto; [now apply decode_dec_ok|]. intros sz r' H' Hf'. now apply IH. }
    destruct t; try (apply Hsmall; reflexivity); try (apply Hbig; reflexivity).
    + apply strong_weak, strong_map. now apply cdec_u64_strong.
    + apply creserve_weak. apply Hsmall; reflexivity.
  - cbn [ty_wf] in Hwf. destruct Hwf as [Hnd Hwf]. apply allP_Forall in Hwf. rewrite Forall_forall in IH.
    fold (sds lim fs).
    rewrite (struct_loop_fuel (sds lim fs) (sds_ok lim fs Hwf) (S (length (flat r))) F [] (flat r) (flat_ok r H)) by lia.
    apply weak_bind.
    + apply cstruct_weak; auto; [now apply sds_ok|]. intros i. rewrite assoc_sds, assoc_map_fields.
      destruct (find_field i fs) as [f|] eqn:Ef; cbn [omap]; [|exact I].
      apply find_field_in in Ef as [Hin _]. rewrite Forall_forall in Hwf.
      intros sz r' H' Hf'. apply IH; auto. now apply Hwf.
    + intros slots r' Ha. destruct (missing_required fs slots); [reflexivity|].
      apply strong_weak, strong_ok, Ha.
  - cbn [ty_wf] in Hwf. destruct Hwf as [Hnd Hwf]. apply allP_Forall in Hwf. rewrite Forall_forall in IH.
    fold (cds lim fs).
    rewrite (choice_loop_fuel (cds lim fs) (cds_ok lim fs Hwf) (S (length (flat r))) F (flat r) (flat_ok r H)) by lia.
    apply cchoice_weak; auto; [now apply cds_ok|]. intros i. rewrite assoc_cds.
    rewrite (assoc_map_fields (fun f => (f_rule f, cdecode F lim (f_type f) true))).
    destruct (find_field i fs) as [f|] eqn:Ef; cbn [omap]; [|exact I]. split; [reflexivity|].
    apply find_field_in in Ef as [Hin _]. rewrite Forall_forall in Hwf.
    intros sz r' H' Hf'. apply IH; auto. now apply Hwf.
Qed.
