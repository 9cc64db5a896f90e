(** Cut-off messages (C22). *)
From Verif Require Export VisitsFacts.

Lemma varint_char_eof b bs : bytes_ok (b :: bs) -> lenN (b :: bs) < spec_varint_len b ->
  deserialize_varint (b :: bs) = Err EOF.
Proof.
  intros Hok Hl. rewrite (deserialize_varint_char b bs Hok).
  now replace (spec_varint_len b <=? lenN (b :: bs)) with false by lia.
Qed.

Lemma varint_prefix_eof n p q : n < two64 -> spec_varint n = p ++ q -> q <> [] ->
  deserialize_varint p = Err EOF.
Proof.
  intros Hn E Hq. destruct p as [|b p]; [reflexivity|].
  destruct (varint_roundtrip_spec n [] Hn (Forall_nil _)) as [_ (b' & tl & Eb & Hb)].
  pose proof (spec_varint_ok n Hn) as Hok. pose proof (spec_varint_length n Hn) as Hlen.
  rewrite E in Eb, Hok, Hlen. injection Eb as <- <-. apply bytes_ok_app in Hok as [Hok _].
  apply varint_char_eof; [exact Hok|]. rewrite Hb, <- Hlen. rewrite lenN_app.
  destruct q as [|x q]; [congruence|]. rewrite !lenN_cons. lia.
Qed.

Lemma app_prefix_split {A} (a b p q : list A) : a ++ b = p ++ q ->
  (exists q1, a = p ++ q1 /\ q1 <> [] /\ q = q1 ++ b) \/ (exists p2, p = a ++ p2 /\ b = p2 ++ q).
Proof.
  revert p. induction a as [|x a IH]; intros p E.
  - right. now exists p.
  - destruct p as [|y p].
    + left. exists (x :: a). cbn in *. repeat split; [discriminate|now symmetry].
    + cbn in E. injection E as -> E. destruct (IH p E) as [(q1 & -> & Hne & ->)|(p2 & -> & ->)].
      * left. exists q1. auto.
      * right. now exists p2.
Qed.

(** The header is cut: some of its bytes are missing, or (size mode 2) nothing of the payload is there
    to tell its size. *)
Definition cut_header (i sz : N) (ie : bool) (p : bytes) : Prop :=
  (exists q, q <> [] /\ spec_header i sz ie = p ++ q) \/
  (p = spec_header i sz ie /\ ie = true /\ sz <> 0 /\ sz <> 8).

Lemma cut_header_eof i sz ie p : i <= max_index -> sz < two64 -> cut_header i sz ie p ->
  deserialize_field_header p = Err EOF /\ bytes_ok p.
Proof.
  intros Hi Hs Hcut.
  assert (bytes_ok p) as Hok.
  { pose proof (spec_header_ok i sz ie Hi Hs) as Ho.
    destruct Hcut as [(q & _ & E)|[-> _]]; [rewrite E in Ho; now apply bytes_ok_app in Ho|exact Ho]. }
  split; [|exact Hok]. unfold deserialize_field_header.
  destruct Hcut as [(q & Hq & E)|(-> & -> & H0 & H8)].
  - assert (forall m, m < 4 -> 4 * i + m < two64) as Ht by (intros; now apply tag_lt).
    unfold spec_header in E.
    destruct (sz =? 0).
    { rewrite (varint_prefix_eof (4 * i) p q) by (auto; specialize (Ht 0); lia). reflexivity. }
    destruct (sz =? 8).
    { rewrite (varint_prefix_eof (4 * i + 1) p q) by (auto; apply Ht; lia). reflexivity. }
    destruct ie.
    { rewrite (varint_prefix_eof (4 * i + 2) p q) by (auto; apply Ht; lia). reflexivity. }
    destruct (app_prefix_split _ _ _ _ E) as [(q1 & E1 & Hne & _)|(p2 & -> & E2)].
    + rewrite (varint_prefix_eof (4 * i + 3) p q1) by (auto; apply Ht; lia). reflexivity.
    + apply bytes_ok_app in Hok as [_ Hok2].
      rewrite (proj1 (varint_roundtrip_spec (4 * i + 3) p2 (Ht 3 ltac:(lia)) Hok2)). cbn [bindr].
      rewrite tag_mode by lia. change (3 =? 0) with false. change (3 =? 1) with false.
      change (3 =? 2) with false. cbv iota.
      rewrite (varint_prefix_eof sz p2 q) by auto. reflexivity.
  - unfold spec_header. replace (sz =? 0) with false by lia. replace (sz =? 8) with false by lia.
    rewrite <- (app_nil_r (spec_varint (4 * i + 2))).
    rewrite (proj1 (varint_roundtrip_spec (4 * i + 2) [] (tag_lt i 2 Hi ltac:(lia)) (Forall_nil _))).
    cbn [bindr]. rewrite tag_mode by lia. reflexivity.
Qed.

(** A struct message cut inside a field header reads as if that field had not been there. *)
Lemma struct_cut_header lim gs its i sz ie p : ty_wf (TStruct gs) -> Forall (item_ok gs) its ->
  i <= max_index -> sz < two64 -> cut_header i sz ie p ->
  lenN (items_bytes its) < two64 -> 8 * lenN (items_bytes its) <= lim ->
  deserialize lim (TStruct gs) (items_bytes its ++ p) = deserialize lim (TStruct gs) (items_bytes its).
Proof.
  intros [Hnd Hwf] Hits Hi Hs Hcut Hl Hlim. apply allP_Forall in Hwf.
  destruct (cut_header_eof i sz ie p Hi Hs Hcut) as [He Hokp].
  unfold deserialize. cbn [decode]. fold (sds lim gs).
  rewrite (struct_loop_items lim gs Hwf its) by (auto; lia).
  pose proof (struct_loop_items lim gs Hwf its (S (length (items_bytes its))) [] [] Hits
                (Forall_nil _) Hl Hlim) as E.
  rewrite app_nil_r in E. rewrite E by lia.
  cbn [struct_loop]. rewrite He. reflexivity.
Qed.

(** A choice cut inside its header, possibly after fields the reader does not know, is rejected. *)
Lemma choice_cut_header lim gs its i sz ie p : ty_wf (TChoice gs) -> Forall (unknown_to gs) its ->
  i <= max_index -> sz < two64 -> cut_header i sz ie p -> lenN (items_bytes its) < two64 ->
  deserialize lim (TChoice gs) (items_bytes its ++ p) = Err EOF.
Proof.
  intros Hwf Hits Hi Hs Hcut Hl.
  destruct (cut_header_eof i sz ie p Hi Hs Hcut) as [He Hokp].
  rewrite choice_unknown_ignored by auto. unfold deserialize. cbn [decode]. fold (cds lim gs).
  cbn [choice_loop]. rewrite He. reflexivity.
Qed.

(** A struct message cut inside the payload of a numeric field (with at least one byte of it left) is
    rejected. *)
Definition numeric (t : ty) : bool :=
  match t with TF64 | TU64 | TS64 | TBool => true | _ => false end.

Lemma u64_payload_cut n p q : n < two64 -> p <> [] -> q <> [] -> spec_u64 true n = p ++ q ->
  (* the size the header gives *)
  forall sz, sz = lenN (spec_u64 true n) -> dec_u64 true sz p = Err EOF.
Proof.
  intros Hn Hp Hq E sz ->. unfold dec_u64. rewrite E.
  assert (0 < lenN p) as Hp' by (destruct p; [congruence|rewrite lenN_cons; lia]).
  assert (0 < lenN q) as Hq' by (destruct q; [congruence|rewrite lenN_cons; lia]).
  rewrite lenN_app. replace (lenN p + lenN q =? 0) with false by lia.
  unfold spec_u64 in E. destruct (n =? 0).
  { destruct p; [congruence|discriminate]. }
  destruct (n <? 567382630219904) eqn:En.
  - pose proof (spec_varint_length n Hn) as Hlen. rewrite E, lenN_app in Hlen.
    destruct (lenN p + lenN q =? 8) eqn:E8.
    + exfalso. unfold varint_size_from_value in Hlen.
      repeat match type of Hlen with context [if ?c then _ else _] => destruct c eqn:? end; lia.
    + now apply (varint_prefix_eof n p q).
  - apply (f_equal lenN) in E. rewrite lenN_le_bytes, lenN_app in E.
    replace (lenN p + lenN q =? 8) with true by lia. unfold read_exact.
    replace (8 <=? lenN p) with false by lia. reflexivity.
Qed.

Lemma numeric_payload_cut lim v t p q : numeric t = true -> wt DOut v t -> p <> [] -> q <> [] ->
  spec_encode true v t = p ++ q -> decode lim t true (lenN (spec_encode true v t)) p = Err EOF.
Proof.
  intros Ht Hw Hp Hq E. destruct t; try discriminate; destruct v; try contradiction;
    cbn [spec_encode decode wt andb] in *.
  - destruct (bits =? 0); [destruct p; [congruence|discriminate]|].
    unfold dec_f64. rewrite lenN_le_bytes. change (N.of_nat 8) with 8. change (8 =? 0) with false.
    cbn [andb]. apply (f_equal lenN) in E. rewrite lenN_le_bytes, lenN_app in E.
    assert (0 < lenN q) by (destruct q; [congruence|rewrite lenN_cons; lia]).
    unfold read_exact. replace (8 <=? lenN p) with false by lia. reflexivity.
  - now rewrite (u64_payload_cut n p q).
  - rewrite <- zigzag_encode_spec in * by exact Hw.
    now rewrite (u64_payload_cut (zigzag_encode z) p q) by auto using zigzag_encode_lt.
  - rewrite (u64_payload_cut (if b then 1 else 0) p q); auto. destruct b; reflexivity.
Qed.

Lemma struct_cut_number lim gs its f v g p q : ty_wf (TStruct gs) -> Forall (item_ok gs) its ->
  item_ok gs (IField f v) -> find_field (f_index f) gs = Some g -> numeric (f_type f) = true ->
  p <> [] -> q <> [] -> spec_encode true v (f_type f) = p ++ q ->
  lenN (items_bytes its ++ item_bytes (IField f v)) < two64 ->
  8 * lenN (items_bytes its ++ item_bytes (IField f v)) <= lim ->
  deserialize lim (TStruct gs)
    (items_bytes its ++
     spec_header (f_index f) (lenN (p ++ q)) (integer_encoded (f_type f)) ++ p) = Err EOF.
Proof.
  intros [Hnd Hwf] Hits Hit Eg Hnum Hp Hq E Hl Hlim. apply allP_Forall in Hwf. rewrite lenN_app in Hl, Hlim.
  pose proof Hit as [Hi (Hw & Ht & Hc)]. cbn [item_index] in *. rewrite Eg in Hc.
  cbn [item_bytes] in *. cbv zeta in *. rewrite lenN_app in Hl, Hlim.
  assert (bytes_ok p) as Hokp.
  { pose proof (spec_encode_ok v (f_type f) true Hw Ht ltac:(lia)) as Ho. rewrite E in Ho.
    now apply bytes_ok_app in Ho. }
  rewrite <- E. set (n := lenN (spec_encode true v (f_type f))) in *.
  set (h := spec_header (f_index f) n (integer_encoded (f_type f))) in *.
  assert (deserialize_field_header (h ++ p) = Ok (f_index f, n) p) as Hh.
  { unfold h. rewrite <- serialize_header_spec by (auto; lia). apply header_roundtrip; auto; [lia|].
    intros H1 H2 H3.
    destruct (field_payload_ok v (f_type f) [] Hw (Forall_nil _) H1 H2 H3) as (b & tl & Eb & Hb).
    rewrite app_nil_r, E in Eb. destruct p as [|b' p]; [congruence|]. cbn in Eb. injection Eb as <- <-.
    exists b', p. auto. }
  unfold deserialize. cbn [decode]. fold (sds lim gs).
  assert (bytes_ok (h ++ p)) as Hokhp
    by (apply bytes_ok_app; split; [apply spec_header_ok; [exact Hi|lia]|exact Hokp]).
  rewrite (struct_loop_items lim gs Hwf its) by (auto; lia).
  cbn [struct_loop]. rewrite Hh, assoc_sds, Eg. cbn [omap].
  rewrite takeN_all; [|unfold n; rewrite E, lenN_app; lia].
  assert (f_type f = f_type g) as <- by (apply compat_small; [exact Hc|destruct (f_type f); easy]).
  unfold n. rewrite (numeric_payload_cut lim v (f_type f) p q) by auto. reflexivity.
Qed.
