From Verif Require Export BaseFacts RustPrim SpecPrim.

Lemma lor_add a b k : a mod 2 ^ k = 0 -> b < 2 ^ k -> N.lor a b = a + b.
Proof.
  intros Ha Hb. symmetry. rewrite N.add_nocarry_lxor.
  - rewrite N.lxor_lor; [reflexivity|].
    apply N.bits_inj; intros i. rewrite N.land_spec, N.bits_0.
    destruct (N.lt_ge_cases i k) as [Hi|Hi].
    + assert (N.testbit a i = false) as ->; [|reflexivity].
      rewrite <- (N.mod_pow2_bits_low a k i Hi), Ha. apply N.bits_0.
    + assert (N.testbit b i = false) as ->; [|now rewrite andb_false_r].
      destruct (N.eq_dec b 0) as [->|Hb0]; [apply N.bits_0|].
      apply N.bits_above_log2. apply N.log2_lt_pow2; [lia|].
      eapply N.lt_le_trans; [exact Hb|]. apply N.pow_le_mono_r; lia.
  - apply N.bits_inj; intros i. rewrite N.land_spec, N.bits_0.
    destruct (N.lt_ge_cases i k) as [Hi|Hi].
    + assert (N.testbit a i = false) as ->; [|reflexivity].
      rewrite <- (N.mod_pow2_bits_low a k i Hi), Ha. apply N.bits_0.
    + assert (N.testbit b i = false) as ->; [|now rewrite andb_false_r].
      destruct (N.eq_dec b 0) as [->|Hb0]; [apply N.bits_0|].
      apply N.bits_above_log2. apply N.log2_lt_pow2; [lia|].
      eapply N.lt_le_trans; [exact Hb|]. apply N.pow_le_mono_r; lia.
Qed.

Lemma shr_div x k : shr x k = x / 2 ^ k.
Proof. apply N.shiftr_div_pow2. Qed.
Lemma shl64_mul x k : shl64 x k = (x * 2 ^ k) mod two64.
Proof. unfold shl64. now rewrite N.shiftl_mul_pow2. Qed.

(** The first byte of a class-[k] varint. *)
Lemma first_byte_eq v k : 1 <= k <= 7 -> v < two64 ->
  N.lor (u8 (shl64 v k)) (2 ^ (k - 1)) = (v * 2 ^ k + 2 ^ (k - 1)) mod 256.
Proof.
  intros Hk Hv. unfold u8. rewrite shl64_mul.
  assert (k = 1 \/ k = 2 \/ k = 3 \/ k = 4 \/ k = 5 \/ k = 6 \/ k = 7) as Hc by lia.
  unfold two64 in *.
  destruct Hc as [-> | [-> | [-> | [-> | [-> | [-> | -> ]]]]]];
    match goal with |- N.lor _ (2 ^ ?e) = (_ * 2 ^ ?k + _) mod _ =>
      rewrite (lor_add _ _ k);
      [ let a := eval vm_compute in (2 ^ e) in change (2 ^ e) with a;
        let b := eval vm_compute in (2 ^ k) in change (2 ^ k) with b; lia
      | let b := eval vm_compute in (2 ^ k) in change (2 ^ k) with b; lia
      | reflexivity ]
    end.
Qed.


Lemma tail_bytes v k j : 1 <= k <= 8 ->
  ((v * 2 ^ k + 2 ^ (k - 1)) / 2 ^ (8 * (j + 1))) = v / 2 ^ (8 - k + 8 * j) .
Proof.
  intros Hk.
  replace (8 * (j + 1)) with (k + (8 - k + 8 * j)) by lia.
  rewrite N.pow_add_r, <- N.div_div by (apply N.pow_nonzero; discriminate).
  f_equal. rewrite N.add_comm, N.div_add by (apply N.pow_nonzero; discriminate).
  rewrite N.div_small; [reflexivity|].
  apply N.pow_lt_mono_r; lia.
Qed.

Lemma nth_le_bytes k v : forall j,
  le_bytes (S k) v = le_bytes (S k) v /\ (v / 2 ^ (8 * j)) / 256 = v / 2 ^ (8 * (j + 1)).
Proof.
  intros j. split; [reflexivity|].
  rewrite N.div_div by (try apply N.pow_nonzero; discriminate).
  f_equal. change 256 with (2 ^ 8). rewrite <- N.pow_add_r. f_equal. lia.
Qed.
Lemma div256_step v j : (v / 2 ^ (8 * j)) / 256 = v / 2 ^ (8 * (j + 1)).
Proof. apply (proj2 (nth_le_bytes 0 v j)). Qed.

Lemma embed_unfold k m : forall n j,
  le_bytes n ((m * 2 ^ k + 2 ^ (k - 1)) / 2 ^ (8 * j)) =
  match n with
  | O => []
  | S n' => ((m * 2 ^ k + 2 ^ (k - 1)) / 2 ^ (8 * j)) mod 256
            :: le_bytes n' ((m * 2 ^ k + 2 ^ (k - 1)) / 2 ^ (8 * (j + 1)))
  end.
Proof. intros [|n] j; [reflexivity|]. cbn [le_bytes]. now rewrite div256_step. Qed.

Lemma embed_split k m : (1 <= k <= 8)%nat ->
  embed k m = (m * 2 ^ N.of_nat k + 2 ^ (N.of_nat k - 1)) mod 256
              :: le_bytes (k - 1) (m / 2 ^ (8 - N.of_nat k)).
Proof.
  intros Hk. unfold embed. destruct k as [|k]; [lia|].
  cbn [le_bytes]. f_equal. replace (S k - 1)%nat with k by lia. f_equal.
  pose proof (tail_bytes m (N.of_nat (S k)) 0 ltac:(lia)) as H.
  change (2 ^ (8 * (0 + 1))) with 256 in H. rewrite H.
  f_equal. f_equal. lia.
Qed.

Lemma le_bytes_shr n v a : le_bytes n (shr v a) =
  match n with O => [] | S n' => u8 (shr v a) :: le_bytes n' (shr v (a + 8)) end.
Proof.
  destruct n as [|n]; [reflexivity|]. cbn [le_bytes]. unfold u8. f_equal. f_equal.
  rewrite !shr_div. rewrite N.div_div by (try apply N.pow_nonzero; discriminate).
  f_equal. change 256 with (2 ^ 8). now rewrite <- N.pow_add_r.
Qed.

Lemma serialize_varint_spec n : n < two64 -> serialize_varint n = spec_varint n.
Proof.
  intros Hn. unfold serialize_varint, spec_varint.
  unfold two64 in Hn.
  Local Ltac cls k :=
    rewrite (embed_split k) by lia; cbn [Nat.sub];
    let kk := eval vm_compute in (N.of_nat k) in
    change (N.of_nat k) with kk;
    rewrite <- (first_byte_eq _ kk) by (unfold two64; lia);
    f_equal; rewrite <- shr_div;
    repeat (rewrite le_bytes_shr); try reflexivity.
  destruct (n <=? 127) eqn:E1. { replace (n <? 128) with true by lia. cls 1%nat. }
  replace (n <? 128) with false by lia.
  destruct (n <=? 16511) eqn:E2. { replace (n <? 16512) with true by lia. cls 2%nat. }
  replace (n <? 16512) with false by lia.
  destruct (n <=? 2113663) eqn:E3. { replace (n <? 2113664) with true by lia. cls 3%nat. }
  replace (n <? 2113664) with false by lia.
  destruct (n <=? 270549119) eqn:E4. { replace (n <? 270549120) with true by lia. cls 4%nat. }
  replace (n <? 270549120) with false by lia.
  destruct (n <=? 34630287487) eqn:E5. { replace (n <? 34630287488) with true by lia. cls 5%nat. }
  replace (n <? 34630287488) with false by lia.
  destruct (n <=? 4432676798591) eqn:E6.
  { replace (n <? 4432676798592) with true by lia. cls 6%nat. }
  replace (n <? 4432676798592) with false by lia.
  destruct (n <=? 567382630219903) eqn:E7.
  { replace (n <? 567382630219904) with true by lia. cls 7%nat. }
  replace (n <? 567382630219904) with false by lia.
  destruct (n <=? 72624976668147839) eqn:E8.
  - replace (n <? 72624976668147840) with true by lia.
    rewrite (embed_split 8) by lia. cbn [Nat.sub]. f_equal.
    + change (N.of_nat 8) with 8. change (2 ^ 8) with 256. change (2 ^ (8 - 1)) with 128. lia.
    + change (2 ^ (8 - N.of_nat 8)) with (2 ^ 0). rewrite <- shr_div.
      do 8 rewrite le_bytes_shr. unfold shr; rewrite N.shiftr_0_r. reflexivity.
  - replace (n <? 72624976668147840) with false by lia. f_equal.
    set (v := n - 72624976668147840).
    assert (le_bytes 8 v = le_bytes 8 (shr v 0)) as -> by (unfold shr; now rewrite N.shiftr_0_r).
    do 9 rewrite le_bytes_shr. unfold shr; rewrite N.shiftr_0_r. reflexivity.
Qed.

Lemma byte_sweep (P : N -> bool) : forallb P (map N.of_nat (seq 0 256)) = true ->
  forall b, b < 256 -> P b = true.
Proof.
  intros H b Hb. rewrite forallb_forall in H. apply H.
  apply in_map_iff. exists (N.to_nat b). split; [lia|]. apply in_seq. lia.
Qed.

Lemma size_from_first_byte_spec b : b < 256 -> varint_size_from_first_byte b = spec_varint_len b.
Proof.
  intros Hb. apply N.eqb_eq. revert b Hb. apply byte_sweep. vm_compute. reflexivity.
Qed.

Lemma tz_facts b : b < 256 ->
  let k := trailing_zeros b in
  k <= 8 /\ (k < 8 -> b mod 2 ^ (k + 1) = 2 ^ k) /\ (k = 8 -> b = 0).
Proof.
  intros Hb.
  pose (P := fun b => let k := trailing_zeros b in
     (k <=? 8) && (negb (k <? 8) || (b mod 2 ^ (k + 1) =? 2 ^ k)) && (negb (k =? 8) || (b =? 0))).
  assert (P b = true) as H by (revert b Hb; apply byte_sweep; vm_compute; reflexivity).
  unfold P in H. cbv zeta in *. lia.
Qed.

Lemma tz_char b k : b < 256 -> 1 <= k <= 8 -> b mod 2 ^ k = 2 ^ (k - 1) ->
  trailing_zeros b = k - 1.
Proof.
  intros Hb Hk H.
  assert (forallb (fun k => implb (b mod 2 ^ k =? 2 ^ (k - 1)) (trailing_zeros b =? k - 1))
           [1;2;3;4;5;6;7;8] = true) as Hs.
  { revert b Hb H.
    intros b Hb _. revert b Hb. apply byte_sweep. vm_compute. reflexivity. }
  rewrite forallb_forall in Hs. specialize (Hs k).
  assert (In k [1;2;3;4;5;6;7;8]) as Hin.
  { assert (k = 1 \/ k = 2 \/ k = 3 \/ k = 4 \/ k = 5 \/ k = 6 \/ k = 7 \/ k = 8) by lia.
    simpl; intuition. }
  specialize (Hs Hin). rewrite H, N.eqb_refl in Hs. cbn in Hs. lia.
Qed.

(** The decoder, in terms of the layout. *)
Lemma deserialize_varint_char b bs : bytes_ok (b :: bs) ->
  let k := spec_varint_len b in
  deserialize_varint (b :: bs) =
    if k <=? lenN (b :: bs) then
      Ok (spec_varint_value k (takeN k (b :: bs)) mod two64) (dropN k (b :: bs))
    else Err EOF.
Proof.
  intros Hok k. inversion Hok as [|? ? Hb Hbs]; subst. unfold byte_ok in Hb.
  pose proof (size_from_first_byte_spec b Hb) as Hk. fold k in Hk.
  unfold varint_size_from_first_byte in Hk.
  pose proof (tz_facts b Hb) as Htz. cbv zeta in Htz. destruct Htz as (Ht8 & Htlt & Ht0).
  unfold deserialize_varint, read_exact.
  replace (1 <=? lenN (b :: bs)) with true by (rewrite lenN_cons; lia).
  cbn [bindr]. change (takeN 1 (b :: bs)) with (b :: takeN 0 bs). rewrite takeN_0. cbn [nth].
  change (dropN 1 (b :: bs)) with (dropN 0 bs). rewrite dropN_0.
  rewrite lenN_cons.
  set (t := trailing_zeros b) in *.
  destruct (t <=? lenN bs) eqn:El; cbn [bindr].
  2:{ replace (k <=? 1 + lenN bs) with false by lia. reflexivity. }
  replace (k <=? 1 + lenN bs) with true by lia.
  assert (takeN k (b :: bs) = b :: takeN t bs) as Htk.
  { cbn [takeN]. replace (k =? 0) with false by lia. do 2 f_equal. lia. }
  assert (dropN k (b :: bs) = dropN t bs) as Hdk.
  { cbn [dropN]. replace (k =? 0) with false by lia. f_equal. lia. }
  rewrite Htk, Hdk.
  assert (le_val (takeN t bs) < 2 ^ (8 * t)) as Hrem.
  { pose proof (le_val_bound (takeN t bs) (bytes_ok_takeN t bs Hbs)) as H.
    rewrite lenN_takeN in H. replace (N.min t (lenN bs)) with t in H by lia. exact H. }
  set (rem := le_val (takeN t bs)) in *.
  assert (t = 0 \/ t = 1 \/ t = 2 \/ t = 3 \/ t = 4 \/ t = 5 \/ t = 6 \/ t = 7 \/ t = 8) as Hc
    by lia.
  unfold spec_varint_value. unfold checked_add64. rewrite !shr_div, !shl64_mul.
  cbn [le_val tl]. fold rem.
  assert (k = t + 1) as Hkt by lia. rewrite Hkt. clear Hk Hkt Htk Hdk k. 
  clearbody rem t.
  unfold two64.
  destruct Hc as [-> | [-> | [-> | [-> | [-> | [-> | [-> | [-> | -> ]]]]]]]];
    repeat match goal with
    | |- context [2 ^ ?e] => let a := eval vm_compute in (2 ^ e) in
        progress change (2 ^ e) with a
    | H : context [2 ^ ?e] |- _ => let a := eval vm_compute in (2 ^ e) in
        progress change (2 ^ e) with a in H
    end;
    repeat match goal with
    | |- context [N.eqb ?x ?y] => let a := eval vm_compute in (N.eqb x y) in
        change (N.eqb x y) with a; cbv iota
    | |- context [N.leb ?x ?y] => let a := eval vm_compute in (N.leb x y) in
        change (N.leb x y) with a; cbv iota
    | |- context [varint_offset ?y] => let a := eval vm_compute in (varint_offset y) in
        change (varint_offset y) with a; cbv iota
    end.
  1: f_equal; lia.
  8: f_equal; lia.
  all: match goal with |- (if ?c then _ else _) = _ => replace c with true by lia end; f_equal; lia.
Qed.

Lemma varint_classes n : n < two64 -> exists k, 1 <= k <= 9 /\
   varint_size_from_value n = k /\
   varint_offset k <= n /\ (k <= 8 -> n - varint_offset k < 2 ^ (7 * k)) /\
   spec_varint n = if k <=? 8 then embed (N.to_nat k) (n - varint_offset k)
                   else 0 :: le_bytes 8 (n - varint_offset 9).
Proof.
  intros Hn. unfold varint_size_from_value, spec_varint. unfold two64 in Hn.
  Local Ltac cl k := exists k;
     repeat match goal with
    | |- context [2 ^ ?e] => let a := eval vm_compute in (2 ^ e) in
        progress change (2 ^ e) with a
    | |- context [varint_offset ?y] => let a := eval vm_compute in (varint_offset y) in
        change (varint_offset y) with a; cbv iota
    end; repeat split; try lia.
  destruct (n <=? 127) eqn:E1. { replace (n <? 128) with true by lia. cl 1. now rewrite N.sub_0_r. }
  replace (n <? 128) with false by lia.
  destruct (n <=? 16511) eqn:E2. { replace (n <? 16512) with true by lia. cl 2. }
  replace (n <? 16512) with false by lia.
  destruct (n <=? 2113663) eqn:E3. { replace (n <? 2113664) with true by lia. cl 3. }
  replace (n <? 2113664) with false by lia.
  destruct (n <=? 270549119) eqn:E4. { replace (n <? 270549120) with true by lia. cl 4. }
  replace (n <? 270549120) with false by lia.
  destruct (n <=? 34630287487) eqn:E5. { replace (n <? 34630287488) with true by lia. cl 5. }
  replace (n <? 34630287488) with false by lia.
  destruct (n <=? 4432676798591) eqn:E6. { replace (n <? 4432676798592) with true by lia. cl 6. }
  replace (n <? 4432676798592) with false by lia.
  destruct (n <=? 567382630219903) eqn:E7.
  { replace (n <? 567382630219904) with true by lia. cl 7. }
  replace (n <? 567382630219904) with false by lia.
  destruct (n <=? 72624976668147839) eqn:E8.
  - replace (n <? 72624976668147840) with true by lia. cl 8.
  - replace (n <? 72624976668147840) with false by lia. cl 9.
Qed.

Lemma embed_length k m : length (embed k m) = k.
Proof. apply le_bytes_length. Qed.

Lemma spec_varint_length n : n < two64 -> lenN (spec_varint n) = varint_size_from_value n.
Proof.
  intros Hn. destruct (varint_classes n Hn) as (k & Hk & Hs & Ho & Hb & He).
  rewrite He, Hs. destruct (k <=? 8) eqn:E.
  - unfold lenN. rewrite embed_length. lia.
  - rewrite lenN_cons, lenN_le_bytes. lia.
Qed.
Lemma serialize_varint_length n : n < two64 ->
  lenN (serialize_varint n) = varint_size_from_value n.
Proof. intros Hn. rewrite serialize_varint_spec by exact Hn. now apply spec_varint_length. Qed.

Lemma spec_varint_ok n : n < two64 -> bytes_ok (spec_varint n).
Proof.
  intros Hn. destruct (varint_classes n Hn) as (k & Hk & Hs & Ho & Hb & He).
  rewrite He. destruct (k <=? 8).
  - apply le_bytes_ok.
  - constructor; [unfold byte_ok; lia | apply le_bytes_ok].
Qed.
Lemma serialize_varint_ok n : n < two64 -> bytes_ok (serialize_varint n).
Proof. intros Hn. rewrite serialize_varint_spec by exact Hn. now apply spec_varint_ok. Qed.

Lemma varint_size_range n : 1 <= varint_size_from_value n <= 9.
Proof.
  unfold varint_size_from_value.
  repeat match goal with |- context [if ?c then _ else _] => destruct c end; lia.
Qed.

(** Decoding what was encoded. *)
Lemma varint_roundtrip_spec n rest : n < two64 -> bytes_ok rest ->
  deserialize_varint (spec_varint n ++ rest) = Ok n rest /\
  (exists b tl, spec_varint n = b :: tl /\ spec_varint_len b = varint_size_from_value n).
Proof.
  intros Hn Hrest.
  pose proof (spec_varint_ok n Hn) as Hvok.
  pose proof (spec_varint_length n Hn) as Hlen.
  destruct (varint_classes n Hn) as (k & Hk & Hs & Ho & Hb & He).
  assert (exists b tl, spec_varint n = b :: tl /\ spec_varint_len b = k /\
            spec_varint_value k (b :: tl) = n) as (b & tl & Hbt & Hl & Hv).
  { rewrite He. destruct (k <=? 8) eqn:E.
    - assert (N.of_nat (N.to_nat k) = k) as Hnk by lia.
      rewrite embed_split by lia. rewrite Hnk. eexists _, _. split; [reflexivity|].
      assert (n - varint_offset k < 2 ^ (7 * k)) as Hm by (apply Hb; lia).
      set (m := n - varint_offset k) in *.
      set (w := m * 2 ^ k + 2 ^ (k - 1)).
      assert (w mod 256 < 256) as Hwb by (apply N.mod_lt; discriminate).
      assert (trailing_zeros (w mod 256) = k - 1) as Htz.
      { apply tz_char; [exact Hwb|lia|].
        replace 256 with (2 ^ (8 - k) * 2 ^ k)
          by (rewrite <- N.pow_add_r; replace (8 - k + k) with 8 by lia; reflexivity).
        rewrite N.mul_comm.
        rewrite N.mod_mul_r by (apply N.pow_nonzero; discriminate).
        rewrite (N.mul_comm (2 ^ k)), N.mod_add by (apply N.pow_nonzero; discriminate).
        rewrite N.mod_mod by (apply N.pow_nonzero; discriminate).
        unfold w. rewrite N.add_comm, N.mod_add by (apply N.pow_nonzero; discriminate).
        apply N.mod_small. apply N.pow_lt_mono_r; lia. }
      split.
      + rewrite <- size_from_first_byte_spec by exact Hwb. unfold varint_size_from_first_byte. lia.
      + unfold spec_varint_value. rewrite E.
        assert (le_val (w mod 256 :: le_bytes (N.to_nat k - 1) (m / 2 ^ (8 - k))) = w) as Hw.
        { assert (embed (N.to_nat k) m = w mod 256 :: le_bytes (N.to_nat k - 1) (m / 2 ^ (8 - k)))
            as Hem by (rewrite embed_split by lia; now rewrite Hnk).
          rewrite <- Hem. unfold embed. rewrite Hnk. fold w. apply le_val_bytes.
          rewrite Hnk. unfold w.
          replace (8 * k) with (7 * k + k) by lia. rewrite N.pow_add_r.
          assert (2 ^ (k - 1) < 2 ^ k) by (apply N.pow_lt_mono_r; lia).
          nia. }
        rewrite Hw. unfold w. rewrite (N.add_comm (m * _)).
        rewrite N.div_add by (apply N.pow_nonzero; discriminate).
        rewrite N.div_small by (apply N.pow_lt_mono_r; lia). unfold m. lia.
    - eexists _, _. split; [reflexivity|]. assert (k = 9) by lia. subst k. rewrite H in *.
      split; [reflexivity|]. unfold spec_varint_value. change (9 <=? 8) with false. cbv iota.
      cbn [tl]. rewrite le_val_bytes.
      + lia.
      + change (2 ^ (8 * N.of_nat 8)) with two64. lia. }
  split; [|exists b, tl; split; [exact Hbt|]; lia].
  assert (bytes_ok (b :: tl ++ rest)) as Hok2.
  { change (b :: tl ++ rest) with ((b :: tl) ++ rest). apply bytes_ok_app. rewrite <- Hbt. auto. }
  pose proof (deserialize_varint_char b (tl ++ rest) Hok2) as Hd. cbv zeta in Hd.
  rewrite Hbt in *. cbn [app]. rewrite Hd, Hl.
  change (b :: tl ++ rest) with ((b :: tl) ++ rest).
  rewrite takeN_app_eq, dropN_app_eq by lia.
  rewrite lenN_app, Hlen, Hs. replace (k <=? k + lenN rest) with true by lia.
  rewrite Hv, N.mod_small by exact Hn. reflexivity.
Qed.

Lemma varint_roundtrip n rest : n < two64 -> bytes_ok rest ->
  deserialize_varint (serialize_varint n ++ rest) = Ok n rest.
Proof.
  intros Hn Hr. rewrite serialize_varint_spec by exact Hn.
  now apply varint_roundtrip_spec.
Qed.

(** Every accepted encoding, on arbitrary input. *)
Lemma varint_decode_total bs : bytes_ok bs ->
  (exists n rest, deserialize_varint bs = Ok n rest /\ n < two64 /\
     (bs = spec_varint n ++ rest \/
      (n < 72624976668147840 /\ bs = varint_alias n ++ rest)))
  \/ (deserialize_varint bs = Err EOF /\
      match bs with [] => True | b :: _ => lenN bs < spec_varint_len b end).
Proof.
  intros Hok. destruct bs as [|b bs]; [right; split; [reflexivity|exact I]|].
  rewrite (deserialize_varint_char b bs Hok).
  assert (b < 256) as Hb by (inversion Hok; assumption).
  set (k := spec_varint_len b) in *.
  destruct (k <=? lenN (b :: bs)) eqn:E; [left|right; split; [reflexivity|lia]].
  eexists _, _. split; [reflexivity|].
  pose proof (size_from_first_byte_spec b Hb) as Hk. fold k in Hk.
  unfold varint_size_from_first_byte in Hk.
  pose proof (tz_facts b Hb) as Htz. cbv zeta in Htz. destruct Htz as (Ht8 & Htlt & Ht0).
  assert (1 <= k <= 9) as Hk19 by lia.
  split; [apply N.mod_lt; discriminate|].
  set (pre := takeN k (b :: bs)).
  assert (lenN pre = k) as Hpl by (unfold pre; rewrite lenN_takeN; lia).
  assert (bytes_ok pre) as Hpok by (apply bytes_ok_takeN; exact Hok).
  assert (pre = b :: tl pre) as Hpb.
  { unfold pre. cbn [takeN]. replace (k =? 0) with false by lia. reflexivity. }
  pose proof (le_val_bound pre Hpok) as Hpb2. rewrite Hpl in Hpb2.
  assert (b :: bs = pre ++ dropN k (b :: bs)) as Hsplit by (symmetry; apply take_drop).
  (* the integer before reduction *)
  destruct (N.lt_ge_cases 8 k) as [Hk9|Hk8].
  - assert (k = 9) as Hk9' by lia. rewrite Hk9' in *.
    assert (b = 0) as Hb0 by (apply Ht0; lia).
    unfold spec_varint_value. change (9 <=? 8) with false. cbv iota.
    change (varint_offset 9) with 72624976668147840.
    assert (lenN (tl pre) = 8) as Htl.
    { rewrite Hpb, lenN_cons in Hpl. lia. }
    assert (bytes_ok (tl pre)) as Htok by (rewrite Hpb in Hpok; inversion Hpok; assumption).
    pose proof (le_val_bound (tl pre) Htok) as Hr. rewrite Htl in Hr.
    change (2 ^ (8 * 8)) with two64 in Hr.
    assert (le_bytes 8 (le_val (tl pre)) = tl pre) as Hlb.
    { replace 8%nat with (length (tl pre)) by (unfold lenN in Htl; lia).
      now apply le_bytes_val. }
    set (r := le_val (tl pre)) in *.
    destruct (N.lt_ge_cases (72624976668147840 + r) two64) as [Hlt|Hge].
    + left. rewrite Hsplit at 1. f_equal.
      rewrite N.mod_small by exact Hlt. unfold spec_varint.
      replace (72624976668147840 + r <? 128) with false by lia.
      replace (72624976668147840 + r <? 16512) with false by lia.
      replace (72624976668147840 + r <? 2113664) with false by lia.
      replace (72624976668147840 + r <? 270549120) with false by lia.
      replace (72624976668147840 + r <? 34630287488) with false by lia.
      replace (72624976668147840 + r <? 4432676798592) with false by lia.
      replace (72624976668147840 + r <? 567382630219904) with false by lia.
      replace (72624976668147840 + r <? 72624976668147840) with false by lia.
      replace (72624976668147840 + r - 72624976668147840) with r by lia.
      rewrite Hlb. now rewrite Hpb, Hb0 at 1.
    + right. assert ((72624976668147840 + r) mod two64 = 72624976668147840 + r - two64) as Hm.
      { unfold two64 in *. lia. }
      rewrite Hm. split; [lia|]. rewrite Hsplit at 1. f_equal.
      unfold varint_alias. replace (_ + two64 - _) with r by lia. rewrite Hlb.
      now rewrite Hpb, Hb0 at 1.
  - left. rewrite Hsplit at 1. f_equal.
    unfold spec_varint_value. replace (k <=? 8) with true by lia.
    set (w := le_val pre) in *. set (m := w / 2 ^ k).
    assert (w mod 256 = b) as Hwb.
    { unfold w. rewrite Hpb. cbn [le_val]. lia. }
    assert (w = m * 2 ^ k + 2 ^ (k - 1)) as Hw.
    { pose proof (N.div_mod w (2 ^ k)) as Hdm. 
      assert (2 ^ k <> 0) as Hnz by (apply N.pow_nonzero; discriminate).
      specialize (Hdm Hnz). fold m in Hdm.
      assert (w mod 2 ^ k = 2 ^ (k - 1)) as Hmod.
      { rewrite <- Hwb in Htlt.
        replace (trailing_zeros (w mod 256)) with (k - 1) in Htlt by (rewrite Hwb; clear - Hk; lia).
        replace (k - 1 + 1) with k in Htlt by (clear - Hk19; lia).
        rewrite <- Htlt by lia.
        replace 256 with (2 ^ k * 2 ^ (8 - k))
          by (rewrite <- N.pow_add_r; replace (k + (8 - k)) with 8 by lia; reflexivity).
        rewrite N.mod_mul_r by (apply N.pow_nonzero; discriminate).
        rewrite (N.mul_comm (2 ^ k)), N.mod_add by exact Hnz.
        now rewrite N.mod_mod by exact Hnz. }
      rewrite Hmod in Hdm. lia. }
    assert (m < 2 ^ (7 * k)) as Hm7.
    { apply N.div_lt_upper_bound; [apply N.pow_nonzero; discriminate|].
      rewrite <- N.pow_add_r. replace (k + 7 * k) with (8 * k) by lia. exact Hpb2. }
    assert (embed (N.to_nat k) m = pre) as Hem.
    { unfold embed. replace (N.of_nat (N.to_nat k)) with k by lia. rewrite <- Hw.
      unfold w. replace (N.to_nat k) with (length pre) by (unfold lenN in Hpl; lia).
      now apply le_bytes_val. }
    rewrite <- Hem. clearbody m. clear - Hk19 Hk8 Hm7.
    assert (k = 1 \/ k = 2 \/ k = 3 \/ k = 4 \/ k = 5 \/ k = 6 \/ k = 7 \/ k = 8) as Hc by lia.
    destruct Hc as [-> | [-> | [-> | [-> | [-> | [-> | [-> | ->]]]]]]];
    match goal with |- context [varint_offset ?y] =>
      let a := eval vm_compute in (varint_offset y) in
      change (varint_offset y) with a end;
    match goal with H : context [2 ^ ?e] |- _ => let a := eval vm_compute in (2 ^ e) in
        change (2 ^ e) with a in H end;
    (rewrite N.mod_small by (unfold two64; lia)); unfold spec_varint;
    repeat match goal with
    | |- context [?x <? ?y] =>
        first [ replace (x <? y) with true by lia | replace (x <? y) with false by lia ]
    end;
    match goal with |- embed ?a ?x = embed ?b ?y =>
      change a with b; f_equal; lia end.
Qed.

Lemma varint_alias_decodes n rest : n < 72624976668147840 -> bytes_ok rest ->
  deserialize_varint (varint_alias n ++ rest) = Ok n rest.
Proof.
  intros Hn Hr. unfold varint_alias.
  assert (bytes_ok (0 :: le_bytes 8 (n + two64 - 72624976668147840) ++ rest)) as Hok.
  { constructor; [unfold byte_ok; lia|]. apply bytes_ok_app; split; [apply le_bytes_ok|exact Hr]. }
  cbn [app]. rewrite (deserialize_varint_char _ _ Hok).
  change (spec_varint_len 0) with 9. rewrite lenN_cons, lenN_app, lenN_le_bytes.
  replace (9 <=? 1 + (N.of_nat 8 + lenN rest)) with true by lia.
  set (v := n + two64 - 72624976668147840).
  change (0 :: le_bytes 8 v ++ rest) with ((0 :: le_bytes 8 v) ++ rest).
  rewrite takeN_app_eq, dropN_app_eq by (rewrite lenN_cons, lenN_le_bytes; reflexivity).
  f_equal. unfold spec_varint_value. change (9 <=? 8) with false. cbv iota. cbn [tl].
  rewrite le_val_bytes.
  - change (varint_offset 9) with 72624976668147840. unfold v, two64. lia.
  - change (2 ^ (8 * N.of_nat 8)) with two64. unfold v, two64. lia.
Qed.

(** Size monotonicity and comparison with base 128. *)
Lemma varint_size_mono a b : a <= b -> varint_size_from_value a <= varint_size_from_value b.
Proof.
  intros H. unfold varint_size_from_value.
  repeat match goal with |- context [if ?c then _ else _] => destruct c eqn:? end; lia.
Qed.

Lemma base128_lower : forall k fuel n, (k <= fuel)%nat -> 2 ^ (7 * N.of_nat k) <= n ->
  N.of_nat k + 1 <= base128_len fuel n.
Proof.
  induction k as [|k IH]; intros fuel n Hf Hn.
  - destruct fuel; cbn [base128_len]; [lia|]. destruct (n <? 128); lia.
  - destruct fuel as [|fuel]; [lia|]. cbn [base128_len].
    replace (7 * N.of_nat (S k)) with (7 + 7 * N.of_nat k) in Hn by lia.
    rewrite N.pow_add_r in Hn. change (2 ^ 7) with 128 in Hn.
    assert (1 <= 2 ^ (7 * N.of_nat k)).
    { pose proof (N.pow_nonzero 2 (7 * N.of_nat k)). lia. }
    replace (n <? 128) with false by nia.
    assert (2 ^ (7 * N.of_nat k) <= n / 128) as Hd.
    { apply N.div_le_lower_bound; lia. }
    specialize (IH fuel (n / 128) ltac:(lia) Hd). lia.
Qed.

Lemma varint_le_base128 n : varint_size_from_value n <= base128_len 10 n.
Proof.
  unfold varint_size_from_value.
  Local Ltac bb k := let H := fresh in
     match goal with |- _ <= base128_len _ ?n =>
       pose proof (base128_lower k 10 n ltac:(lia)) as H end;
     match type of H with context [2 ^ ?e] => let a := eval vm_compute in (2 ^ e) in
       change (2 ^ e) with a in H;
       let b := eval vm_compute in (N.of_nat k) in change (N.of_nat k) with b in H end; lia.
  destruct (n <=? 127) eqn:E1; [cbn [base128_len]; destruct (n <? 128); lia|].
  destruct (n <=? 16511) eqn:E2; [bb 1%nat|].
  destruct (n <=? 2113663) eqn:E3; [bb 2%nat|].
  destruct (n <=? 270549119) eqn:E4; [bb 3%nat|].
  destruct (n <=? 34630287487) eqn:E5; [bb 4%nat|].
  destruct (n <=? 4432676798591) eqn:E6; [bb 5%nat|].
  destruct (n <=? 567382630219903) eqn:E7; [bb 6%nat|].
  destruct (n <=? 72624976668147839) eqn:E8; [bb 7%nat|]. bb 8%nat.
Qed.

