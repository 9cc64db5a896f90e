From Verif Require Export RustPrimFacts Types.

(** ZigZag. *)
Lemma u64_of_i64_lt z : u64_of_i64 z < two64.
Proof. unfold u64_of_i64, two64. lia. Qed.
Lemma u64_i64_u64 n : n < two64 -> u64_of_i64 (i64_of_u64 n) = n.
Proof. unfold u64_of_i64, i64_of_u64, two64, two63. intros. destruct (n <? _) eqn:E; lia. Qed.
Lemma i64_u64_i64 z : i64_ok z -> i64_of_u64 (u64_of_i64 z) = z.
Proof.
  unfold u64_of_i64, i64_of_u64, i64_ok, two64, two63. intros H.
  change (Z.of_N 18446744073709551616) with 18446744073709551616%Z.
  change (Z.of_N 9223372036854775808) with 9223372036854775808%Z in H.
  assert (z mod 18446744073709551616 = if (z <? 0) then z + 18446744073709551616 else z)%Z as ->.
  { destruct (z <? 0)%Z eqn:E; [|rewrite Z.mod_small; lia].
    symmetry. apply (Z.mod_unique _ _ (-1)%Z); [left; lia|lia]. }
  destruct (z <? 0)%Z eqn:E.
  - replace (_ <? _) with false by lia. lia.
  - replace (_ <? _) with true by lia. lia.
Qed.

Lemma lxor_ones n : n < two64 -> N.lxor 18446744073709551615 n = 18446744073709551615 - n.
Proof.
  intros Hn. rewrite N.lxor_comm.
  change 18446744073709551615 with (N.ones 64).
  destruct (N.eq_dec n 0) as [->|H0]; [reflexivity|].
  change (N.lnot n 64 = N.ones 64 - n). apply N.lnot_sub_low.
  apply N.log2_lt_pow2; [lia|exact Hn].
Qed.

Lemma zigzag_encode_spec z : i64_ok z -> zigzag_encode z = spec_zigzag z.
Proof.
  intros Hz. unfold zigzag_encode, spec_zigzag, shl1_i64.
  rewrite u64_i64_u64 by (apply N.mod_lt; discriminate).
  rewrite shl64_mul. change (2 ^ 1) with 2. unfold i64_ok, two63 in Hz.
  rewrite Z.shiftr_div_pow2 by lia. change (2 ^ 63)%Z with 9223372036854775808%Z.
  destruct (0 <=? z)%Z eqn:E.
  - replace (z / 9223372036854775808)%Z with 0%Z by lia.
    change (u64_of_i64 0) with 0. rewrite N.lxor_0_l. unfold u64_of_i64, two64. lia.
  - replace (z / 9223372036854775808)%Z with (-1)%Z by lia.
    change (u64_of_i64 (-1)) with 18446744073709551615.
    rewrite lxor_ones by (apply N.mod_lt; discriminate).
    unfold u64_of_i64, two64. lia.
Qed.

Lemma zigzag_decode_spec n : n < two64 ->
  zigzag_decode n = (if N.even n then Z.of_N (n / 2) else - Z.of_N (n / 2) - 1)%Z.
Proof.
  intros Hn. unfold zigzag_decode. rewrite shr_div. change (2 ^ 1) with 2.
  change 1 with (N.ones 1) at 1. rewrite N.land_ones. change (2 ^ 1) with 2.
  rewrite <- N.negb_odd. rewrite <- N.bit0_odd. rewrite N.bit0_eqb.
  unfold two64 in Hn.
  destruct (n mod 2 =? 1) eqn:E; cbn [negb].
  - replace (n mod 2) with 1 by lia. change (u64_of_i64 (- i64_of_u64 1)) with 18446744073709551615.
    rewrite N.lxor_comm, lxor_ones by (unfold two64; lia).
    unfold i64_of_u64, two63, two64. destruct (_ <? _) eqn:E2; lia.
  - replace (n mod 2) with 0 by lia. change (u64_of_i64 (- i64_of_u64 0)) with 0.
    rewrite N.lxor_0_r. unfold i64_of_u64, two63, two64. destruct (_ <? _) eqn:E2; lia.
Qed.

Lemma zigzag_encode_lt z : i64_ok z -> zigzag_encode z < two64.
Proof.
  intros Hz. rewrite zigzag_encode_spec by exact Hz.
  unfold spec_zigzag, i64_ok, two63, two64 in *. destruct (0 <=? z)%Z eqn:E; lia.
Qed.
Lemma zigzag_decode_ok n : n < two64 -> i64_ok (zigzag_decode n).
Proof.
  intros Hn. rewrite zigzag_decode_spec by exact Hn. unfold i64_ok, two64, two63 in *.
  destruct (N.even n); lia.
Qed.
Lemma zigzag_dec_enc z : i64_ok z -> zigzag_decode (zigzag_encode z) = z.
Proof.
  intros Hz. rewrite zigzag_decode_spec by (now apply zigzag_encode_lt).
  rewrite zigzag_encode_spec by exact Hz. unfold spec_zigzag, i64_ok, two63 in *.
  destruct (0 <=? z)%Z eqn:E.
  - replace (N.even (Z.to_N (2 * z))) with true; [lia|].
    symmetry. apply N.even_spec. exists (Z.to_N z). lia.
  - replace (N.even (Z.to_N (-2 * z - 1))) with false; [lia|].
    symmetry. rewrite <- N.negb_odd. apply negb_false_iff. apply N.odd_spec.
    exists (Z.to_N (- z - 1)). lia.
Qed.
Lemma zigzag_enc_dec n : n < two64 -> zigzag_encode (zigzag_decode n) = n.
Proof.
  intros Hn. rewrite zigzag_encode_spec by (now apply zigzag_decode_ok).
  rewrite zigzag_decode_spec by exact Hn. unfold spec_zigzag.
  pose proof (N.div_mod n 2 ltac:(discriminate)) as Hd.
  rewrite <- N.negb_odd, <- N.bit0_odd, N.bit0_eqb.
  destruct (n mod 2 =? 1) eqn:E; cbn [negb];
    match goal with |- (if ?c then _ else _) = _ => destruct c eqn:E2 end; lia.
Qed.

(** Field headers. *)
Lemma tag_eq i m : i <= max_index -> m < 4 -> N.lor (shl64 i 2) m = 4 * i + m.
Proof.
  unfold max_index. intros Hi Hm. rewrite shl64_mul. change (2 ^ 2) with 4.
  rewrite N.mod_small by (unfold two64; lia).
  rewrite (lor_add _ _ 2); change (2 ^ 2) with 4; lia.
Qed.
Lemma tag_lt i m : i <= max_index -> m < 4 -> 4 * i + m < two64.
Proof. unfold max_index, two64. lia. Qed.
Lemma tag_index i m : m < 4 -> shr (4 * i + m) 2 = i.
Proof. intros Hm. rewrite shr_div. change (2 ^ 2) with 4. lia. Qed.
Lemma tag_mode i m : m < 4 -> N.land (4 * i + m) 3 = m.
Proof. intros Hm. change 3 with (N.ones 2). rewrite N.land_ones. change (2 ^ 2) with 4. lia. Qed.

Lemma serialize_header_spec i size ie : i <= max_index -> size < two64 ->
  serialize_field_header i size ie = spec_header i size ie.
Proof.
  intros Hi Hs. unfold serialize_field_header, spec_header.
  rewrite !tag_eq by (try exact Hi; lia). rewrite N.add_0_r.
  destruct (size =? 0);
    [apply serialize_varint_spec; pose proof (tag_lt i 0 Hi); lia|].
  destruct (size =? 8); [apply serialize_varint_spec, (tag_lt i 1 Hi); lia|].
  destruct ie; [apply serialize_varint_spec, (tag_lt i 2 Hi); lia|].
  rewrite !serialize_varint_spec; [reflexivity | exact Hs | apply (tag_lt i 3 Hi); lia].
Qed.

Lemma header_size_spec i size ie : i <= max_index -> size < two64 ->
  field_header_size i size ie = lenN (serialize_field_header i size ie).
Proof.
  intros Hi Hs. unfold serialize_field_header, field_header_size.
  rewrite !tag_eq by (try exact Hi; lia).
  destruct (size =? 0); [rewrite serialize_varint_length; [reflexivity|apply tag_lt; [exact Hi|lia]]|].
  destruct (size =? 8); [rewrite serialize_varint_length; [reflexivity|apply tag_lt; [exact Hi|lia]]|].
  destruct ie; [rewrite serialize_varint_length; [reflexivity|apply tag_lt; [exact Hi|lia]]|].
  rewrite lenN_app, !serialize_varint_length; [reflexivity | exact Hs | apply tag_lt; [exact Hi|lia]].
Qed.

Lemma spec_header_ok i size ie : i <= max_index -> size < two64 -> bytes_ok (spec_header i size ie).
Proof.
  intros Hi Hs. unfold spec_header.
  pose proof (tag_lt i 0 Hi ltac:(lia)) as H0. rewrite N.add_0_r in H0.
  destruct (size =? 0); [apply spec_varint_ok; exact H0|].
  destruct (size =? 8); [apply spec_varint_ok, tag_lt; [exact Hi|lia]|].
  destruct ie; [apply spec_varint_ok, tag_lt; [exact Hi|lia]|].
  apply bytes_ok_app; split; apply spec_varint_ok; [apply tag_lt; [exact Hi|lia]|exact Hs].
Qed.

(** What the header announces must hold of a varint-encoded value. *)
Definition header_payload_ok (size : N) (ie : bool) (rest : bytes) : Prop :=
  ie = true -> size <> 0 -> size <> 8 ->
  exists b tl, rest = b :: tl /\ spec_varint_len b = size.

Lemma header_roundtrip i size ie rest : i <= max_index -> size < two64 -> bytes_ok rest ->
  header_payload_ok size ie rest ->
  deserialize_field_header (serialize_field_header i size ie ++ rest) = Ok (i, size) rest.
Proof.
  intros Hi Hs Hr Hp. rewrite serialize_header_spec by assumption.
  unfold spec_header, deserialize_field_header.
  destruct (size =? 0) eqn:E0.
  { pose proof (tag_lt i 0 Hi ltac:(lia)) as H0.
    pose proof (tag_index i 0 ltac:(lia)) as H1.
    pose proof (tag_mode i 0 ltac:(lia)) as H2. rewrite N.add_0_r in *.
    destruct (varint_roundtrip_spec (4 * i) rest H0 Hr) as [-> _]. cbn [bindr].
    rewrite H1, H2. assert (size = 0) as -> by lia. reflexivity. }
  destruct (size =? 8) eqn:E8.
  { destruct (varint_roundtrip_spec (4 * i + 1) rest) as [-> _];
      [apply tag_lt; [exact Hi|lia]|exact Hr|]. cbn [bindr].
    rewrite tag_index, tag_mode by lia. assert (size = 8) as -> by lia. reflexivity. }
  destruct ie.
  { destruct (varint_roundtrip_spec (4 * i + 2) rest) as [-> _];
      [apply tag_lt; [exact Hi|lia]|exact Hr|]. cbn [bindr].
    rewrite tag_index, tag_mode by lia. cbn.
    destruct (Hp eq_refl ltac:(lia) ltac:(lia)) as (b & tl & -> & Hl).
    inversion Hr; subst. rewrite size_from_first_byte_spec by assumption. reflexivity. }
  rewrite <- app_assoc.
  destruct (varint_roundtrip_spec (4 * i + 3) (spec_varint size ++ rest)) as [-> _];
    [apply tag_lt; [exact Hi|lia]|apply bytes_ok_app; split; [now apply spec_varint_ok|exact Hr]|].
  cbn [bindr]. rewrite tag_index, tag_mode by lia.
  change (3 =? 0) with false. change (3 =? 1) with false. change (3 =? 2) with false. cbv iota.
  destruct (varint_roundtrip_spec size rest Hs Hr) as [-> _]. reflexivity.
Qed.
