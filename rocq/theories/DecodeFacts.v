(** Facts about the decoder on arbitrary input: what it leaves is a suffix of the input, the fuel
    never runs out (and its amount does not matter), results are well-typed incoming values. *)
From Verif Require Export RustPrimFacts2 TypesFacts RustCodec.

(** [rpost P r]: [r] is not an artefact of fuel, and if it is a success [P] holds. *)
Definition rpost {A} (P : A -> bytes -> Prop) (r : res A) : Prop :=
  match r with Ok a rest => P a rest | OutOfFuel => False | _ => True end.

Lemma rpost_bindr {A B} (r : res A) (k : A -> bytes -> res B)
  (P : A -> bytes -> Prop) (Q : B -> bytes -> Prop) :
  rpost P r -> (forall a rest, P a rest -> rpost Q (k a rest)) -> rpost Q (bindr r k).
Proof. destruct r; simpl; auto. Qed.
Lemma rpost_mapr {A B} (f : A -> B) (r : res A) (P : A -> bytes -> Prop)
  (Q : B -> bytes -> Prop) :
  rpost P r -> (forall a rest, P a rest -> Q (f a) rest) -> rpost Q (mapr f r).
Proof. destruct r; simpl; auto. Qed.
Lemma rpost_weaken {A} (r : res A) (P Q : A -> bytes -> Prop) :
  rpost P r -> (forall a rest, P a rest -> Q a rest) -> rpost Q r.
Proof. destruct r; simpl; auto. Qed.
Lemma rpost_ok {A} (P : A -> bytes -> Prop) a rest r : rpost P r -> r = Ok a rest -> P a rest.
Proof. intros H ->. exact H. Qed.

Lemma read_exact_post n bs :
  rpost (fun b rest => suffix rest bs /\ bs = b ++ rest /\ lenN b = n) (read_exact n bs).
Proof.
  unfold read_exact. destruct (n <=? lenN bs) eqn:E; simpl; auto.
  split; [apply suffix_dropN|]. split; [symmetry; apply take_drop|].
  rewrite lenN_takeN. lia.
Qed.

(** Strictly shorter suffix. *)
Definition psuffix (rest bs : bytes) : Prop := exists b bs', bs = b :: bs' /\ suffix rest bs'.
Lemma psuffix_suffix a b : psuffix a b -> suffix a b.
Proof. intros (x & y & -> & H). eapply suffix_trans; [exact H|apply suffix_cons]. Qed.
Lemma psuffix_length a b : psuffix a b -> (length a < length b)%nat.
Proof. intros (x & y & -> & H). apply suffix_length in H. simpl. lia. Qed.
Lemma psuffix_trans a b c : suffix a b -> psuffix b c -> psuffix a c.
Proof. intros H (x & y & -> & H2). exists x, y. split; [reflexivity|]. now apply (suffix_trans _ b). Qed.

Lemma varint_post bs : bytes_ok bs ->
  rpost (fun n rest => psuffix rest bs /\ n < two64) (deserialize_varint bs) /\
  deserialize_varint bs <> Panic /\ deserialize_varint bs <> Diverge /\
  deserialize_varint bs <> Err InvalidData.
Proof.
  intros Hok. destruct (varint_decode_total bs Hok) as [(n & rest & H & Hn & Hor)|[H _]].
  - rewrite H. simpl. repeat split; try discriminate; [|exact Hn].
    assert (exists pre, pre <> [] /\ bs = pre ++ rest) as (pre & Hne & ->).
    { destruct Hor as [->|[_ ->]]; eexists; (split; [|reflexivity]).
      - pose proof (spec_varint_length n Hn) as Hl. pose proof (varint_size_range n) as Hr.
        intros Hnil. rewrite Hnil in Hl. rewrite lenN_nil in Hl. lia.
      - discriminate. }
    destruct pre as [|b pre]; [congruence|]. exists b, (pre ++ rest).
    split; [reflexivity|]. now exists pre.
  - rewrite H. simpl. repeat split; discriminate.
Qed.

Lemma size_from_first_byte_range b : 1 <= varint_size_from_first_byte b <= 9.
Proof.
  unfold varint_size_from_first_byte, trailing_zeros.
  repeat match goal with |- context [if ?c then _ else _] => destruct c end; lia.
Qed.

Lemma header_post bs : bytes_ok bs ->
  rpost (fun h rest => psuffix rest bs /\ fst h <= max_index /\ snd h < two64)
        (deserialize_field_header bs) /\
  deserialize_field_header bs <> Panic /\ deserialize_field_header bs <> Diverge /\
  deserialize_field_header bs <> Err InvalidData.
Proof.
  intros Hok. unfold deserialize_field_header.
  destruct (varint_post bs Hok) as (Hp & Hnp & Hnd & Hni).
  destruct (deserialize_varint bs) as [tag bs1|e| | |]; simpl in *;
    try (repeat split; congruence); try contradiction.
  destruct Hp as [Hps Ht].
  assert (shr tag 2 <= max_index) as Hi.
  { rewrite shr_div. change (2 ^ 2) with 4. unfold max_index, two64 in *. lia. }
  destruct (N.land tag 3 =? 0); [simpl; repeat split; try discriminate; auto; unfold two64; lia|].
  destruct (N.land tag 3 =? 1); [simpl; repeat split; try discriminate; auto; unfold two64; lia|].
  destruct (N.land tag 3 =? 2).
  - destruct bs1 as [|b bs1]; simpl; repeat split; try discriminate; auto.
    pose proof (size_from_first_byte_range b). unfold two64. lia.
  - assert (bytes_ok bs1) as Hok1 by (eapply suffix_ok; [apply psuffix_suffix; exact Hps|exact Hok]).
    destruct (varint_post bs1 Hok1) as (Hp2 & Hnp2 & Hnd2 & Hni2).
    destruct (deserialize_varint bs1) as [sz bs2|e2| | |]; simpl in *;
      try (repeat split; congruence); try contradiction.
    destruct Hp2 as [Hps2 Hs]. repeat split; try discriminate; auto.
    eapply psuffix_trans; [apply psuffix_suffix; exact Hps2|exact Hps].
Qed.

Lemma skip_post n bs : rpost (fun _ left => suffix left bs) (skip n bs).
Proof. unfold skip. destruct (n <=? lenN bs); simpl; auto. apply suffix_dropN. Qed.

Lemma dec_u64_post isf psz bs : bytes_ok bs ->
  rpost (fun n rest => suffix rest bs /\ n < two64 /\ (isf = false -> psuffix rest bs))
        (dec_u64 isf psz bs).
Proof.
  intros Hok. unfold dec_u64. pose proof (proj1 (varint_post bs Hok)) as Hv.
  assert (rpost (fun n rest => suffix rest bs /\ n < two64 /\ (isf = false -> psuffix rest bs))
     (deserialize_varint bs)) as Hv2.
  { eapply rpost_weaken; [exact Hv|]. simpl. intros a rest [H1 H2].
    auto using psuffix_suffix. }
  destruct isf; [|exact Hv2].
  destruct (psz =? 0);
    [simpl; split; [apply suffix_refl|split; [unfold two64; lia|discriminate]]|].
  destruct (psz =? 8); [|exact Hv2].
  eapply rpost_bindr; [apply read_exact_post|]. simpl. intros b rest (Hs & Hb & Hl).
  repeat split; auto; [|discriminate].
  subst bs. apply bytes_ok_app in Hok. destruct Hok as [Hokb _].
  pose proof (le_val_bound b Hokb). rewrite Hl in *. exact H.
Qed.

Lemma dec_f64_post isf psz bs : bytes_ok bs ->
  rpost (fun n rest => suffix rest bs /\ n < two64 /\ (isf = false -> psuffix rest bs))
        (dec_f64 isf psz bs).
Proof.
  intros Hok. unfold dec_f64. destruct (isf && (psz =? 0)) eqn:E.
  - simpl. destruct isf; [|discriminate].
    split; [apply suffix_refl|split; [unfold two64; lia|discriminate]].
  - eapply rpost_bindr; [apply read_exact_post|]. simpl. intros b rest (Hs & Hb & Hl).
    subst bs. apply bytes_ok_app in Hok. destruct Hok as [Hokb _].
    pose proof (le_val_bound b Hokb). rewrite Hl in *.
    repeat split; auto. intros _. destruct b as [|x b]; [discriminate|].
    exists x, (b ++ rest). split; [reflexivity|now exists b].
Qed.

Lemma small_loop_post (P : val -> Prop) el :
  (forall bs, bytes_ok bs -> rpost (fun v rest => psuffix rest bs /\ P v) (el bs)) ->
  forall fuel bs, (length bs < fuel)%nat -> bytes_ok bs ->
  rpost (fun vs rest => suffix rest bs /\ Forall P vs) (small_loop fuel el bs).
Proof.
  intros Hel. induction fuel as [|fuel IH]; intros bs Hf Hok; [lia|].
  cbn [small_loop]. pose proof (Hel bs Hok) as H.
  destruct (el bs) as [v rest|e| | |]; simpl in *; auto.
  - destruct H as [Hps Hv].
    eapply rpost_mapr; [apply IH|].
    + apply psuffix_length in Hps. lia.
    + eapply suffix_ok; [apply psuffix_suffix; exact Hps|exact Hok].
    + simpl. intros vs r [Hs Hvs]. split; [|now constructor].
      eapply suffix_trans; [exact Hs|now apply psuffix_suffix].
  - destruct e; simpl; auto. split; [apply suffix_nil|constructor].
Qed.

Lemma sized_loop_post (P : val -> Prop) (el : N -> bytes -> res val) :
  (forall sz bs, bytes_ok bs -> rpost (fun v rest => suffix rest bs /\ P v) (el sz bs)) ->
  forall fuel bs, (length bs < fuel)%nat -> bytes_ok bs ->
  rpost (fun vs rest => suffix rest bs /\ Forall P vs) (sized_loop fuel el bs).
Proof.
  intros Hel. induction fuel as [|fuel IH]; intros bs Hf Hok; [lia|].
  cbn [sized_loop]. pose proof (proj1 (varint_post bs Hok)) as H.
  destruct (deserialize_varint bs) as [sz rest|e| | |]; simpl in *; auto.
  - destruct H as [Hps Hv].
    assert (bytes_ok rest) as Hokr by (eapply suffix_ok; [apply psuffix_suffix; exact Hps|exact Hok]).
    eapply rpost_bindr; [apply Hel; apply bytes_ok_takeN; exact Hokr|].
    intros v left [Hl HPv]. apply suffix_take_drop in Hl.
    eapply rpost_mapr; [apply IH|].
    + apply psuffix_length in Hps. apply suffix_length in Hl. lia.
    + eapply suffix_ok; [exact Hl|exact Hokr].
    + simpl. intros vs r [Hs Hvs]. split; [|now constructor].
      eapply suffix_trans; [exact Hs|]. eapply suffix_trans; [exact Hl|now apply psuffix_suffix].
  - destruct e; simpl; auto. split; [apply suffix_nil|constructor].
Qed.

Definition dec_ok (P : val -> Prop) (d : decoder) : Prop :=
  forall sz bs, bytes_ok bs -> rpost (fun v rest => suffix rest bs /\ P v) (d sz bs).

Lemma assoc_app {A} i (l1 l2 : list (N * A)) :
  assoc i (l1 ++ l2) = match assoc i l1 with Some a => Some a | None => assoc i l2 end.
Proof.
  induction l1 as [|[j a] l1 IH]; simpl; [reflexivity|]. destruct (j =? i); auto.
Qed.

Lemma struct_loop_post (Q : N -> val -> Prop) ds :
  (forall i d, assoc i ds = Some d -> dec_ok (Q i) d) ->
  forall fuel slots bs, (length bs < fuel)%nat -> bytes_ok bs ->
  (forall i v, assoc i slots = Some v -> Q i v) ->
  rpost (fun slots' rest => suffix rest bs /\ forall i v, assoc i slots' = Some v -> Q i v)
        (struct_loop fuel ds slots bs).
Proof.
  intros Hds. induction fuel as [|fuel IH]; intros slots bs Hf Hok Hsl; [lia|].
  cbn [struct_loop]. pose proof (proj1 (header_post bs Hok)) as H.
  destruct (deserialize_field_header bs) as [[i sz] rest|e| | |]; simpl in *; auto.
  - destruct H as (Hps & _ & _).
    assert (bytes_ok rest) as Hokr by (eapply suffix_ok; [apply psuffix_suffix; exact Hps|exact Hok]).
    destruct (assoc i ds) as [d|] eqn:Ed.
    + eapply rpost_bindr; [apply (Hds i d Ed); apply bytes_ok_takeN; exact Hokr|].
      intros v left [Hl HPv]. apply suffix_take_drop in Hl.
      eapply rpost_weaken; [apply IH|].
      * apply psuffix_length in Hps. apply suffix_length in Hl. lia.
      * eapply suffix_ok; [exact Hl|exact Hokr].
      * intros j w. unfold get_or_insert. destruct (assoc i slots) eqn:Ea; [apply Hsl|].
        rewrite assoc_app. destruct (assoc j slots) eqn:Ej; [intros [= <-]; now apply Hsl|].
        simpl. destruct (i =? j) eqn:Eij; [|discriminate]. intros [= <-].
        assert (i = j) by lia. now subst.
      * intros s r [Hs Hq]. split; [|exact Hq].
        eapply suffix_trans; [exact Hs|]. eapply suffix_trans; [exact Hl|now apply psuffix_suffix].
    + eapply rpost_bindr; [apply skip_post|].
      intros u left Hl. apply suffix_take_drop in Hl.
      eapply rpost_weaken; [apply IH|].
      * apply psuffix_length in Hps. apply suffix_length in Hl. lia.
      * eapply suffix_ok; [exact Hl|exact Hokr].
      * exact Hsl.
      * intros s r [Hs Hq]. split; [|exact Hq].
        eapply suffix_trans; [exact Hs|]. eapply suffix_trans; [exact Hl|now apply psuffix_suffix].
  - destruct e; simpl; auto. split; [apply suffix_nil|exact Hsl].
Qed.

Lemma choice_loop_post (Q : val -> Prop) ds :
  (forall i r d, assoc i ds = Some (r, d) ->
     dec_ok (fun p => match r with
                      | Optional => forall fb, Q fb -> Q (VChoice i p (Some fb))
                      | _ => Q (VChoice i p None)
                      end) d) ->
  forall fuel bs, (length bs < fuel)%nat -> bytes_ok bs ->
  rpost (fun v rest => suffix rest bs /\ Q v) (choice_loop fuel ds bs).
Proof.
  intros Hds. induction fuel as [|fuel IH]; intros bs Hf Hok; [lia|].
  cbn [choice_loop]. eapply rpost_bindr; [exact (proj1 (header_post bs Hok))|].
  intros [i sz] rest (Hps & _ & _).
  assert (bytes_ok rest) as Hokr by (eapply suffix_ok; [apply psuffix_suffix; exact Hps|exact Hok]).
  destruct (assoc i ds) as [[r d]|] eqn:Ed.
  - eapply rpost_bindr; [apply (Hds i r d Ed); apply bytes_ok_takeN; exact Hokr|].
    intros v left [Hl HPv]. apply suffix_take_drop in Hl. cbv zeta.
    destruct r.
    + simpl. split; [apply suffix_nil|exact HPv].
    + eapply rpost_bindr; [apply IH|].
      * apply psuffix_length in Hps. apply suffix_length in Hl. lia.
      * eapply suffix_ok; [exact Hl|exact Hokr].
      * simpl. intros fb r [Hs HQ]. split; [|now apply HPv].
        eapply suffix_trans; [exact Hs|]. eapply suffix_trans; [exact Hl|now apply psuffix_suffix].
    + simpl. split; [apply suffix_nil|exact HPv].
  - eapply rpost_bindr; [apply skip_post|].
    intros u left Hl. apply suffix_take_drop in Hl.
    eapply rpost_weaken; [apply IH|].
    + apply psuffix_length in Hps. apply suffix_length in Hl. lia.
    + eapply suffix_ok; [exact Hl|exact Hokr].
    + intros s r [Hs HQ]. split; [|exact HQ].
      eapply suffix_trans; [exact Hs|]. eapply suffix_trans; [exact Hl|now apply psuffix_suffix].
Qed.

Lemma assoc_map_fields {A} (g : field_of ty -> A) i fs :
  assoc i (map (fun f => (f_index f, g f)) fs) = omap g (find_field i fs).
Proof.
  induction fs as [|f fs IH]; simpl; [reflexivity|]. destruct (f_index f =? i); auto.
Qed.

Lemma all2P_assoc (Pf : option val -> field_of ty -> Prop) slots fs :
  (forall f, In f fs -> Pf (assoc (f_index f) slots) f) ->
  all2P Pf (map (fun f => assoc (f_index f) slots) fs) fs.
Proof.
  induction fs as [|f fs IH]; intros H; simpl; [exact I|].
  split; [apply H; now left|]. apply IH. intros g Hg. apply H. now right.
Qed.

(** Main invariant of the decoder on arbitrary bytes. *)
Lemma decode_post lim : forall t, ty_wf t -> forall isf psz bs, bytes_ok bs ->
  rpost (fun v rest => suffix rest bs /\ wt DIn v t /\
           (isf = false -> sized_element t = false -> is_unit t = false -> psuffix rest bs))
        (decode lim t isf psz bs).
Proof.
  induction t as [| | | | | | |t IH|fs IH|fs IH] using ty_ind'; intros Hwf isf psz bs Hok;
    cbn [decode].
  - (* Unit *) simpl. repeat split; auto using suffix_refl. discriminate.
  - (* F64 *) eapply rpost_mapr; [apply dec_f64_post; exact Hok|].
    simpl. intros n rest (Hs & Hn & Hp). auto.
  - (* U64 *) eapply rpost_mapr; [apply dec_u64_post; exact Hok|].
    simpl. intros n rest (Hs & Hn & Hp). auto.
  - (* S64 *) eapply rpost_mapr; [apply dec_u64_post; exact Hok|].
    simpl. intros n rest (Hs & Hn & Hp). auto using zigzag_decode_ok.
  - (* Bool *) eapply rpost_mapr; [apply dec_u64_post; exact Hok|].
    simpl. intros n rest (Hs & Hn & Hp). auto.
  - (* Bytes *) unfold reserve. destruct (lim <? psz); simpl; auto.
    repeat split; auto using suffix_nil. discriminate.
  - (* String *) unfold reserve. destruct (lim <? psz); simpl; auto.
    destruct (utf8_decode bs) as [s|] eqn:Eu; simpl; auto.
    apply utf8_decode_char in Eu. repeat split; auto using suffix_nil; [tauto|discriminate].
  - (* Array *)
    simpl in Hwf. specialize (IH Hwf).
    assert (is_unit t = false -> sized_element t = false -> rpost (fun v rest =>
        suffix rest bs /\ wt DIn v (TArray t) /\ (isf = false -> true = false -> false = false -> psuffix rest bs))
        (mapr VArr (small_loop (S (length bs)) (fun bs => decode lim t false 0 bs) bs))) as Hsmall.
    { intros Hu Hse. eapply rpost_mapr.
      - apply (small_loop_post (fun v => wt DIn v t)); [|lia|exact Hok].
        intros bs' Hok'. eapply rpost_weaken; [apply (IH false 0 bs' Hok')|].
        simpl. intros v rest (H1 & H2 & H3). auto.
      - simpl. intros vs rest [H1 H2]. repeat split; auto; [now apply allP_Forall|discriminate]. }
    assert (is_unit t = false -> sized_element t = true -> rpost (fun v rest =>
        suffix rest bs /\ wt DIn v (TArray t) /\ (isf = false -> true = false -> false = false -> psuffix rest bs))
        (mapr VArr (sized_loop (S (length bs)) (decode lim t false) bs))) as Hbig.
    { intros Hu Hse. eapply rpost_mapr.
      - apply (sized_loop_post (fun v => wt DIn v t)); [|lia|exact Hok].
        intros sz bs' Hok'. eapply rpost_weaken; [apply (IH false sz bs' Hok')|].
        simpl. intros v rest (H1 & H2 & H3). auto.
      - simpl. intros vs rest [H1 H2]. repeat split; auto; [now apply allP_Forall|discriminate]. }
    destruct t; try (apply Hsmall; reflexivity); try (apply Hbig; reflexivity).
    + eapply rpost_mapr; [apply dec_u64_post; exact Hok|].
      simpl. intros n rest (Hs & Hn & Hp). auto.
    + unfold reserve. destruct (lim <? 8 * psz); [exact I|]. apply Hsmall; reflexivity.
  - (* Struct *)
    simpl in Hwf. destruct Hwf as [Hnd Hwf]. apply allP_Forall in Hwf.
    rewrite Forall_forall in IH, Hwf.
    eapply rpost_bindr.
    + apply (struct_loop_post (fun i v => exists f, find_field i fs = Some f /\ wt DIn v (f_type f)));
        [|lia|exact Hok|simpl; discriminate].
      intros i d Hd. rewrite assoc_map_fields in Hd.
      destruct (find_field i fs) as [f|] eqn:Ef; [|discriminate]. simpl in Hd. injection Hd as <-.
      apply find_field_in in Ef. destruct Ef as [Hin _]. intros sz bs' Hok'.
      eapply rpost_weaken; [apply (IH f Hin); [apply Hwf; exact Hin|exact Hok']|].
      simpl. intros v rest (H1 & H2 & H3). eauto.
    + intros slots rest [Hs Hq]. destruct (missing_required fs slots) eqn:Em; simpl; auto.
      repeat split; auto; [|discriminate]. apply all2P_assoc. intros f Hin.
      destruct (assoc (f_index f) slots) as [v|] eqn:Ea.
      * destruct (Hq _ _ Ea) as (g & Hg & Hw). rewrite (find_field_nodup fs f Hnd Hin) in Hg.
        injection Hg as <-. exact Hw.
      * unfold missing_required in Em.
        destruct (f_rule f) eqn:Er; try reflexivity. exfalso.
        assert (existsb (fun f => is_required (f_rule f) &&
                    match assoc (f_index f) slots with Some _ => false | None => true end) fs = true)
          as Hex.
        { apply existsb_exists. exists f. rewrite Er, Ea. auto. }
        congruence.
  - (* Choice *)
    simpl in Hwf. destruct Hwf as [Hnd Hwf]. apply allP_Forall in Hwf.
    rewrite Forall_forall in IH, Hwf.
    eapply rpost_weaken.
    + apply (choice_loop_post (fun v => wt DIn v (TChoice fs))); [|lia|exact Hok].
      intros i r d Hd.
      change (fun f : field_of ty => (f_index f, (f_rule f, decode lim (f_type f) true)))
        with (fun f : field_of ty => (f_index f, (fun f => (f_rule f, decode lim (f_type f) true)) f))
        in Hd.
      rewrite (assoc_map_fields (fun f => (f_rule f, decode lim (f_type f) true))) in Hd.
      destruct (find_field i fs) as [f|] eqn:Ef; [|discriminate]. simpl in Hd. injection Hd as <- <-.
      pose proof (find_field_in _ _ _ Ef) as [Hin _]. intros sz bs' Hok'.
      eapply rpost_weaken; [apply (IH f Hin); [apply Hwf; exact Hin|exact Hok']|].
      simpl. intros v rest (H1 & H2 & H3). split; [exact H1|].
      destruct (f_rule f) eqn:Er; simpl; try rewrite Ef; try rewrite Er; auto.
    + simpl. intros v rest [H1 H2]. repeat split; auto. discriminate.
Qed.
