(** Statements of Properties3.v that need a few lines of glue. *)
From Verif Require Export TsItems TsTyped PrimExtra.

Lemma small53 : 2 ^ 53 < two64. Proof. reflexivity. Qed.

Lemma ts_writes_varint n buf off : n < two64 -> off + lenN (serialize_varint n) <= lenN buf ->
  ts_serialize_varint buf off n =
    JOk (takeN off buf ++ serialize_varint n ++ dropN (off + lenN (serialize_varint n)) buf,
         off + lenN (serialize_varint n)).
Proof. intros Hn. rewrite serialize_varint_spec by exact Hn. intros H. now apply emits_varint. Qed.

Lemma ts_writes_header i sz ie buf off : i <= max_index -> sz < two64 ->
  off + lenN (serialize_field_header i sz ie) <= lenN buf ->
  ts_serialize_header buf off i sz ie =
    JOk (takeN off buf ++ serialize_field_header i sz ie ++ dropN (off + lenN (serialize_field_header i sz ie)) buf,
         off + lenN (serialize_field_header i sz ie)).
Proof.
  intros Hi Hs. rewrite serialize_header_spec by assumption. intros H. now apply emits_header.
Qed.

Lemma vrest_within pre bs post off : off <= lenN bs ->
  vrest (mkView (pre ++ bs ++ post) (lenN pre) (lenN bs)) off = dropN off bs.
Proof.
  intros Ho. rewrite <- (N.add_0_l off) at 1. rewrite vrest_drop. unfold vrest. cbn. rewrite N.sub_0_r, N.add_0_r, dropN_app. now rewrite takeN_app.
Qed.

Lemma ts_reads_varint pre bs post off : bytes_ok pre -> bytes_ok bs -> bytes_ok post -> off <= lenN bs ->
  ts_deserialize_varint (mkView (pre ++ bs ++ post) (lenN pre) (lenN bs)) off =
    match deserialize_varint (dropN off bs) with
    | Ok n rest => JOk (lenN bs - lenN rest, n)
    | _ => JRange
    end.
Proof.
  intros H1 H2 H3 Ho. rewrite ts_deserialize_varint_eq by (now apply view_in).
  rewrite vrest_within by exact Ho. reflexivity.
Qed.
Lemma ts_reads_header pre bs post off : bytes_ok pre -> bytes_ok bs -> bytes_ok post -> off <= lenN bs ->
  ts_deserialize_header (mkView (pre ++ bs ++ post) (lenN pre) (lenN bs)) off =
    match deserialize_field_header (dropN off bs) with
    | Ok (i, sz) rest => JOk (lenN bs - lenN rest, i, sz)
    | _ => JRange
    end.
Proof.
  intros H1 H2 H3 Ho. rewrite ts_deserialize_header_eq by (now apply view_in).
  rewrite vrest_within by exact Ho. reflexivity.
Qed.

(** NaNs *)
Lemma is_nan_iff b : is_nan b = true <-> ieee_nan b.
Proof.
  unfold is_nan, ieee_nan. rewrite andb_true_iff, negb_true_iff, N.eqb_eq, N.eqb_neq. split.
  - intros [H1 H2]. exists (b / 2 ^ 63), (b mod 2 ^ 52).
    pose proof (N.div_mod' b (2 ^ 52)) as E1. pose proof (N.div_mod' (b / 2 ^ 52) 2048) as E2. rewrite H1, N.div_div in E2 by discriminate.
    change (2 ^ 52 * 2048) with (2 ^ 63) in E2. pose proof (N.mod_lt b (2 ^ 52) ltac:(discriminate)) as E3. change (2 ^ 63) with (2 ^ 52 * 2048) in *.
    split; [|lia]. rewrite E1 at 1. rewrite E2 at 1. lia.
  - intros (s & m & -> & H). change (2 ^ 63) with (2 ^ 52 * 2048). replace (s * (2 ^ 52 * 2048) + 2047 * 2 ^ 52 + m) with (m + (s * 2048 + 2047) * 2 ^ 52) by lia.
    rewrite N.div_add, N.mod_add, (N.div_small m), (N.mod_small m) by (discriminate || lia). split; [|lia].
    rewrite N.add_0_l, N.add_comm, N.mod_add by discriminate. reflexivity.
Qed.
Lemma js_bits_spec b : ieee_nan b /\ js_bits b = canonical_nan \/ ~ ieee_nan b /\ js_bits b = b.
Proof.
  unfold js_bits. destruct (is_nan b) eqn:E.
  - left. split; [now apply is_nan_iff|reflexivity].
  - right. split; [|reflexivity]. intros H. apply is_nan_iff in H. congruence.
Qed.
Lemma only_nans v : same_but_nans v (js_val v).
Proof.
  induction v as [|x|n|z|x|bs|s|n|vs IH|ovs IH|i p fb IHp IHfb] using val_ind'; try reflexivity; cbn [js_val same_but_nans].
  - apply js_bits_spec.
  - induction IH as [|v vs H1 H2 IH]; [exact I|]. cbn [map all2P]. auto.
  - induction IH as [|[v|] ovs H1 H2 IH]; [exact I| |]; cbn [map all2P]; auto.
  - split; [reflexivity|]. split; [exact IHp|]. destruct fb; [exact IHfb|exact I].
Qed.
Lemma js_exact_same v : js_exact v -> js_val v = v.
Proof.
  induction v as [|x|n|z|x|bs|s|n|vs IH|ovs IH|i p fb IHp IHfb] using val_ind'; try reflexivity; cbn [js_val js_exact].
  - intros H. f_equal. destruct (js_bits_spec x) as [[A ->]|[_ ->]]; [now rewrite H|reflexivity].
  - intros H. f_equal. induction IH as [|v vs H1 H2 IH]; [reflexivity|]. destruct H as [K1 K2]. cbn [map]. now rewrite H1, IH.
  - intros H. f_equal. induction IH as [|[v|] ovs H1 H2 IH]; [reflexivity| |]; destruct H as [K1 K2]; cbn [map]; [now rewrite H1, IH|now rewrite IH].
  - intros [K1 K2]. rewrite IHp by exact K1. destruct fb; [now rewrite IHfb|reflexivity].
Qed.
Lemma same_js_exact v : js_val v = v -> js_exact v.
Proof.
  induction v as [|x|n|z|x|bs|s|n|vs IH|ovs IH|i p fb IHp IHfb] using val_ind'; try (intros _; exact I); cbn [js_val js_exact]; intros H.
  - injection H as H. intros A. destruct (js_bits_spec x) as [[_ B]|[B _]]; [congruence|contradiction].
  - injection H as H. induction IH as [|v vs H1 H2 IH]; [exact I|]. cbn [map] in H. injection H as K1 K2. cbn [allP]. auto.
  - injection H as H. induction IH as [|[v|] ovs H1 H2 IH]; [exact I| |]; cbn [map] in H; injection H as K1 K2 || injection H as K2; cbn [allP]; auto.
  - destruct fb; injection H as K1 K2 || injection H as K1; auto.
Qed.

(** C25 *)
Lemma ts_same_bytes v t bs : wt DOut v t -> ty_wf t -> js_exact v -> size v t < 2 ^ 53 ->
  serialize v t = Some bs ->
  ts_serialize_full v t = JOk (bs, lenN bs) /\ ts_serialize v t = JOk bs /\ ts_size v t = lenN bs.
Proof.
  intros Hw Ht He Hl Hs. pose proof small53 as H53.
  destruct (ts_serialize_ok v t Hw Ht ltac:(lia)) as (bs' & E1 & E2 & E3 & E4 & _). apply js_exact_same in He.
  rewrite He, Hs in E2. injection E2 as <-. split; [|split; [exact E1|lia]].
  rewrite (serialize_spec v t Hw Ht) in Hs by lia. injection Hs as <-.
  rewrite size_exact in Hl by assumption. rewrite ts_serialize_spec by (auto; lia). now rewrite He.
Qed.
Lemma ts_fills_buffer v t : wt DOut v t -> ty_wf t -> size v t < 2 ^ 53 ->
  exists bs, ts_serialize_full v t = JOk (bs, lenN bs) /\ ts_serialize v t = JOk bs /\
    lenN bs = ts_size v t /\ ts_size v t = size v t /\ serialize (js_val v) t = Some bs.
Proof.
  intros Hw Ht Hl. pose proof small53 as H53.
  destruct (ts_serialize_ok v t Hw Ht ltac:(lia)) as (bs & E1 & E2 & E3 & E4 & E5).
  exists bs. repeat split; auto; try lia.
  rewrite size_exact in Hl by assumption. rewrite ts_serialize_spec by (auto; lia).
  rewrite serialize_spec in E2 by (auto using js_val_wt; rewrite E5, size_exact by assumption; lia).
  injection E2 as <-. now rewrite js_val_len.
Qed.

(** C26 *)
Lemma js_to_in_exact : forall v t, js_exact v -> js_val (to_in v t) = to_in v t.
Proof.
  assert (forall v t, js_val (to_in v t) = to_in (js_val v) t) as H.
  { induction v as [|x|n|z|x|bs|s|n|vs IH|ovs IH|i p fb IHp IHfb] using val_ind'; intros t;
      try reflexivity.
    - destruct t; try reflexivity. cbn [to_in js_val]. f_equal. rewrite !map_map. apply map_ext_in.
      intros v Hv. rewrite Forall_forall in IH. now apply IH.
    - destruct t as [| | | | | | | |fs|]; try reflexivity. cbn [to_in js_val]. f_equal.
      revert fs. induction ovs as [|ov ovs IHo]; intros [|f fs]; try reflexivity.
      inversion IH as [|? ? H1 H2]; subst. cbn [map2 map]. f_equal; [|now apply IHo].
      destruct ov; [cbn in H1; now rewrite H1|reflexivity].
    - destruct t as [| | | | | | | | |fs]; try reflexivity. cbn [to_in js_val].
      destruct (find_field i fs) as [f|]; [|reflexivity]. cbn [js_val]. rewrite IHp. f_equal.
      destruct (f_rule f), fb as [v'|]; try reflexivity. cbn in IHfb. now rewrite IHfb. }
  intros v t He. rewrite H. apply js_exact_same in He. now rewrite He.
Qed.

Lemma ts_round_trip v t pre bs post : wt DOut v t -> ty_wf t -> ts_faithful v -> size v t < 2 ^ 53 ->
  ts_serialize v t = JOk bs -> bytes_ok pre -> bytes_ok post ->
  ts_deserialize t (mkView (pre ++ bs ++ post) (lenN pre) (lenN bs)) = TsMessage (js_val (to_in v t)).
Proof.
  intros Hw Ht Hf Hl Hs Hp Hq. pose proof small53 as H53.
  destruct (ts_serialize_ok v t Hw Ht ltac:(lia)) as (bs' & E1 & E2 & E3 & E4 & E5).
  rewrite Hs in E1. injection E1 as <-.
  rewrite (ts_reads_message (js_val v) t t pre bs post);
    auto using js_val_wt, js_faithful; try lia; [|apply safe_compat; auto; now apply safe_refl].
  rewrite migrate_js, migrate_self by assumption. f_equal. apply js_val_idem.
Qed.

(** C29 *)
Lemma rust_reads_ts v a b bs : wt DOut v a -> ty_wf a -> ty_wf b -> compat a b -> size v a < 2 ^ 53 ->
  ts_serialize v a = JOk bs -> deserialize isize_max b bs = Ok (js_val (migrate v a b)) [].
Proof.
  intros Hw Ha Hb Hc Hl Hs. pose proof small53 as H53.
  destruct (ts_serialize_ok v a Hw Ha ltac:(lia)) as (bs' & E1 & E2 & E3 & E4 & E5).
  rewrite Hs in E1. injection E1 as <-. rewrite <- migrate_js.
  assert (8 * 2 ^ 53 <= isize_max) as Hi by (vm_compute; discriminate).
  apply (evolution_reads isize_max (js_val v) a b bs); auto using js_val_wt; try lia.
Qed.
Lemma ts_reads_rust v a b pre bs post : wt DOut v a -> ty_wf a -> ty_wf b -> compat a b ->
  ts_faithful v -> size v a < 2 ^ 53 -> serialize v a = Some bs -> bytes_ok pre -> bytes_ok post ->
  ts_deserialize b (mkView (pre ++ bs ++ post) (lenN pre) (lenN bs)) = TsMessage (js_val (migrate v a b)).
Proof.
  intros Hw Ha Hb Hc Hf Hl Hs Hp Hq. pose proof small53 as H53. apply ts_reads_message; auto; lia.
Qed.

(** C28 *)
Lemma ts_returns t w : view_ok w -> ts_deserialize t w <> TsStuck.
Proof.
  intros Hv H. unfold ts_deserialize in H. pose proof (ts_decode_returns t true (vlen w) w 0 Hv) as Hn.
  destruct (ts_decode t true (vlen w) w 0) as [[? ?]| | |]; try discriminate H. now apply Hn.
Qed.
