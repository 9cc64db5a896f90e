(** The TypeScript prelude against the Rust prelude. *)
From Verif Require Export TsPrim RustPrimFacts2.

(** ** Views *)
Definition view_ok (v : view) : Prop := voff v + vlen v <= lenN (vbuf v) /\ bytes_ok (vbuf v).
(** The bytes of the view from [off] on. *)
Definition vrest (v : view) (off : N) : bytes :=
  takeN (vlen v - off) (dropN (voff v + off) (vbuf v)).

Lemma dropN_dropN {A} a b (l : list A) : dropN a (dropN b l) = dropN (b + a) l.
Proof.
  revert b. induction l as [|x l IH]; intros b; [reflexivity|]. cbn [dropN].
  destruct (b =? 0) eqn:E.
  - replace b with 0 by lia. now rewrite N.add_0_l.
  - replace (b + a =? 0) with false by lia. rewrite IH. f_equal. lia.
Qed.
Lemma takeN_takeN {A} a b (l : list A) : takeN a (takeN b l) = takeN (N.min a b) l.
Proof. rewrite !takeN_firstn, firstn_firstn. f_equal. lia. Qed.
Lemma dropN_takeN {A} a b (l : list A) : dropN a (takeN b l) = takeN (b - a) (dropN a l).
Proof.
  rewrite !takeN_firstn, !dropN_skipn, skipn_firstn_comm. f_equal. lia.
Qed.

Lemma vrest_ok v off : view_ok v -> bytes_ok (vrest v off).
Proof. intros [_ H]. now apply bytes_ok_takeN, bytes_ok_dropN. Qed.
Lemma vrest_len v off : view_ok v -> lenN (vrest v off) = vlen v - off.
Proof. intros [H _]. unfold vrest. rewrite lenN_takeN, lenN_dropN. lia. Qed.
Lemma vrest_drop v off n : vrest v (off + n) = dropN n (vrest v off).
Proof.
  unfold vrest. rewrite dropN_takeN, dropN_dropN. f_equal; [lia|]. f_equal. lia.
Qed.
Lemma vrest_suffix v off a b : view_ok v -> vrest v off = a ++ b -> b <> [] \/ off <= vlen v ->
  vlen v - lenN b = off + lenN a /\ vrest v (off + lenN a) = b.
Proof.
  intros Hv E Hb. pose proof (vrest_len v off Hv) as Hl. rewrite E, lenN_app in Hl. split.
  - destruct Hb as [Hb|Hb]; [|lia]. destruct b; [congruence|]. rewrite lenN_cons in *. lia.
  - rewrite vrest_drop, E. apply dropN_app.
Qed.
Lemma vget_rest v off n : view_ok v -> 0 < n ->
  vget v off n = if n <=? lenN (vrest v off) then JOk (takeN n (vrest v off)) else JRange.
Proof.
  intros Hv Hn. rewrite vrest_len by exact Hv. unfold vget.
  destruct (off + n <=? vlen v) eqn:E.
  - replace (n <=? vlen v - off) with true by lia. unfold vrest. rewrite takeN_takeN.
    do 2 f_equal. lia.
  - replace (n <=? vlen v - off) with false by lia. reflexivity.
Qed.
Lemma get_u8_rest v off : view_ok v ->
  get_u8 v off = match vrest v off with b :: _ => JOk b | [] => JRange end.
Proof.
  intros Hv. unfold get_u8. rewrite vget_rest by (auto; lia).
  destruct (vrest v off) as [|b r]; [reflexivity|]. rewrite lenN_cons.
  replace (1 <=? 1 + lenN r) with true by lia. cbn [takeN jmap jbind].
  replace (1 =? 0) with false by reflexivity. replace (1 - 1) with 0 by reflexivity.
  rewrite takeN_0. unfold jmap, jbind. cbn [le_val]. f_equal. lia.
Qed.

Lemma get_bytes_rest v : view_ok v -> forall k off,
  get_bytes v off k = if N.of_nat k <=? lenN (vrest v off)
                      then JOk (takeN (N.of_nat k) (vrest v off)) else JRange.
Proof.
  intros Hv. induction k as [|k IH]; intros off.
  - replace (N.of_nat 0 <=? lenN (vrest v off)) with true by lia. now rewrite takeN_0.
  - cbn [get_bytes]. rewrite get_u8_rest, IH by exact Hv. rewrite vrest_drop.
    destruct (vrest v off) as [|b r] eqn:E.
    + cbn [jbind].
      destruct (N.of_nat (S k) <=? _) eqn:E2; [|reflexivity]. unfold lenN in E2. cbn [length] in E2. lia.
    + cbn [jbind]. cbn [dropN]. replace (1 =? 0) with false by reflexivity.
      replace (1 - 1) with 0 by reflexivity. rewrite dropN_0, lenN_cons.
      destruct (N.of_nat k <=? lenN r) eqn:E2.
      * replace (N.of_nat (S k) <=? 1 + lenN r) with true by lia. unfold jmap, jbind.
        cbn [takeN]. replace (N.of_nat (S k) =? 0) with false by lia.
        do 3 f_equal. lia.
      * replace (N.of_nat (S k) <=? 1 + lenN r) with false by lia. reflexivity.
Qed.

(** ** Sizes and ZigZag *)
Lemma ts_varint_size_eq n : ts_varint_size n = varint_size_from_value n.
Proof.
  unfold ts_varint_size, varint_size_from_value.
  repeat match goal with |- context [?a <? ?b] => replace (a <? b) with (a <=? b - 1) by lia end.
  reflexivity.
Qed.

Lemma ts_size_from_first_byte_eq b : b < 256 ->
  ts_size_from_first_byte b = varint_size_from_first_byte b.
Proof.
  intros Hb.
  apply N.eqb_eq.
  apply (byte_sweep (fun b => ts_size_from_first_byte b =? varint_size_from_first_byte b));
    [vm_compute; reflexivity|exact Hb].
Qed.

Lemma ts_zigzag_encode_eq z : i64_ok z -> ts_zigzag_encode z = Z.of_N (zigzag_encode z).
Proof.
  intros Hz. rewrite zigzag_encode_spec by exact Hz. unfold ts_zigzag_encode, spec_zigzag.
  rewrite Z.shiftl_mul_pow2 by lia. change (2 ^ 1)%Z with 2%Z.
  destruct (z <? 0)%Z eqn:E.
  - replace (0 <=? z)%Z with false by lia. lia.
  - replace (0 <=? z)%Z with true by lia. lia.
Qed.
Lemma ts_zigzag_decode_eq n : n < two64 -> ts_zigzag_decode (Z.of_N n) = zigzag_decode n.
Proof.
  intros Hn. rewrite zigzag_decode_spec by exact Hn. unfold ts_zigzag_decode.
  rewrite Z.shiftr_div_pow2 by lia. change (2 ^ 1)%Z with 2%Z.
  replace (Z.land (Z.of_N n) 1) with (Z.of_N n mod 2)%Z
    by (symmetry; exact (Z.land_ones (Z.of_N n) 1 ltac:(lia))).
  rewrite <- N.negb_odd. rewrite <- N.bit0_odd. rewrite N.bit0_eqb.
  destruct (n mod 2 =? 1) eqn:E; cbn [negb];
    match goal with |- (if ?c then _ else _) = _ => destruct c eqn:E2 end; lia.
Qed.

(** ** Decoding *)
Definition as_js {A} (v : view) (r : res A) : jres (N * A) :=
  match r with Ok a rest => JOk (vlen v - lenN rest, a) | _ => JRange end.

Lemma ts_deserialize_varint_eq v off : view_ok v ->
  ts_deserialize_varint v off = as_js v (deserialize_varint (vrest v off)).
Proof.
  intros Hv. unfold ts_deserialize_varint. rewrite get_u8_rest by exact Hv.
  pose proof (vrest_ok v off Hv) as Hok. pose proof (vrest_len v off Hv) as Hl.
  destruct (vrest v off) as [|b r] eqn:E; [reflexivity|]. cbn [jbind].
  inversion Hok as [|? ? Hb Hr]; subst. unfold byte_ok in Hb.
  rewrite ts_size_from_first_byte_eq by exact Hb. unfold varint_size_from_first_byte.
  rewrite get_bytes_rest, vrest_drop, E by exact Hv.
  change (dropN 1 (b :: r)) with (dropN 0 r). rewrite dropN_0.
  pose proof (tz_facts b Hb) as Htz. cbv zeta in Htz. destruct Htz as (Ht8 & Htlt & Ht0).
  rewrite lenN_cons in Hl.
  unfold deserialize_varint, read_exact.
  replace (1 <=? lenN (b :: r)) with true by (rewrite lenN_cons; lia).
  cbn [bindr]. change (takeN 1 (b :: r)) with (b :: takeN 0 r). rewrite takeN_0. cbn [nth].
  change (dropN 1 (b :: r)) with (dropN 0 r). rewrite dropN_0.
  set (t := trailing_zeros b) in *.
  replace (t + 1 - 1) with t by lia. rewrite N2Nat.id.
  destruct (t <=? lenN r) eqn:El; cbn [jbind bindr]; [|reflexivity].
  assert (le_val (takeN t r) < 2 ^ (8 * t)) as Hrem.
  { pose proof (le_val_bound (takeN t r) (bytes_ok_takeN t r Hr)) as H.
    rewrite lenN_takeN in H. replace (N.min t (lenN r)) with t in H by lia. exact H. }
  set (rem := le_val (takeN t r)) in *.
  pose proof (lenN_dropN t r) as Hd.
  assert (t = 0 \/ t = 1 \/ t = 2 \/ t = 3 \/ t = 4 \/ t = 5 \/ t = 6 \/ t = 7 \/ t = 8) as Hc
    by lia.
  unfold checked_add64. rewrite !shl64_mul. unfold shr. rewrite !N.shiftr_div_pow2, !N.shiftl_mul_pow2.
  clearbody rem. unfold two64 in *.
  destruct Hc as [Ec | [Ec | [Ec | [Ec | [Ec | [Ec | [Ec | [Ec | Ec ]]]]]]]]; rewrite Ec in *;
    repeat match goal with
    | |- context [2 ^ ?e] => let a := eval vm_compute in (2 ^ e) in
        progress change (2 ^ e) with a
    | H : context [2 ^ ?e] |- _ => let a := eval vm_compute in (2 ^ e) in
        progress change (2 ^ e) with a in H
    end;
    repeat match goal with
    | |- context [N.eqb ?x ?y] => let a := eval vm_compute in (N.eqb x y) in
        change (N.eqb x y) with a; cbv iota
    end.
  1: cbn [as_js]; do 2 f_equal; lia.
  8: cbn [as_js]; do 2 f_equal; lia.
  all: match goal with |- _ = as_js _ (if ?c then _ else _) => replace c with true by lia end;
    cbn [as_js]; do 2 f_equal; lia.
Qed.

Lemma ts_varint_step v off n rest : view_ok v ->
  deserialize_varint (vrest v off) = Ok n rest ->
  off < vlen v - lenN rest <= vlen v /\ vrest v (vlen v - lenN rest) = rest /\
  ts_deserialize_varint v off = JOk (vlen v - lenN rest, n).
Proof.
  intros Hv E. rewrite ts_deserialize_varint_eq, E by exact Hv. cbn [as_js].
  pose proof (vrest_ok v off Hv) as Hok. pose proof (vrest_len v off Hv) as Hl.
  destruct (vrest v off) as [|b r] eqn:Er; [discriminate|].
  rewrite deserialize_varint_char in E by exact Hok. cbv zeta in E.
  assert (1 <= spec_varint_len b) as Hs.
  { unfold spec_varint_len. repeat match goal with |- context [if ?c then _ else _] => destruct c end; lia. }
  destruct (spec_varint_len b <=? lenN (b :: r)) eqn:E2; [|discriminate].
  pose proof (lenN_dropN (spec_varint_len b) (b :: r)) as Hd.
  pose proof (vrest_drop v off (spec_varint_len b)) as Hv2. rewrite Er in Hv2.
  remember (dropN (spec_varint_len b) (b :: r)) as r' eqn:Er'. injection E as _ ->.
  replace (vlen v - lenN rest) with (off + spec_varint_len b) by lia.
  rewrite Hv2. repeat split; lia.
Qed.

Lemma ts_deserialize_header_eq v off : view_ok v ->
  ts_deserialize_header v off =
    match deserialize_field_header (vrest v off) with
    | Ok (i, sz) rest => JOk (vlen v - lenN rest, i, sz)
    | _ => JRange
    end.
Proof.
  intros Hv. unfold ts_deserialize_header, deserialize_field_header.
  rewrite ts_deserialize_varint_eq by exact Hv.
  destruct (deserialize_varint (vrest v off)) as [tag rest|e| | |] eqn:E; cbn [as_js jbind bindr];
    try reflexivity.
  destruct (ts_varint_step v off tag rest Hv E) as (_ & Er & _).
  unfold shr.
  destruct (N.land tag 3 =? 0); [reflexivity|]. destruct (N.land tag 3 =? 1); [reflexivity|].
  destruct (N.land tag 3 =? 2).
  - rewrite get_u8_rest, Er by exact Hv. destruct rest as [|b r]; [reflexivity|]. cbn [jbind].
    rewrite ts_size_from_first_byte_eq; [reflexivity|].
    pose proof (vrest_ok v (vlen v - lenN (b :: r)) Hv) as Hok. rewrite Er in Hok.
    inversion Hok; assumption.
  - rewrite ts_deserialize_varint_eq, Er by exact Hv.
    destruct (deserialize_varint rest); reflexivity.
Qed.

Lemma ts_header_step v off i sz rest : view_ok v ->
  deserialize_field_header (vrest v off) = Ok (i, sz) rest ->
  off < vlen v - lenN rest <= vlen v /\ vrest v (vlen v - lenN rest) = rest /\
  ts_deserialize_header v off = JOk (vlen v - lenN rest, i, sz).
Proof.
  intros Hv E. rewrite ts_deserialize_header_eq, E by exact Hv.
  unfold deserialize_field_header in E. apply bindr_ok in E as (tag & r1 & E1 & E).
  destruct (ts_varint_step v off tag r1 Hv E1) as (H1 & Er & _).
  destruct (N.land tag 3 =? 0); [injection E as _ _ <-; auto|].
  destruct (N.land tag 3 =? 1); [injection E as _ _ <-; auto|].
  destruct (N.land tag 3 =? 2).
  - destruct r1; [discriminate|]. injection E as _ _ <-. auto.
  - apply bindr_ok in E as (sz' & r2 & E2 & E). injection E as _ _ <-.
    rewrite <- Er in E2. destruct (ts_varint_step v _ sz' r2 Hv E2) as (H2 & Er2 & _).
    repeat split; auto; lia.
Qed.

(** ** Encoding: a statement that writes exactly [bs] at the offset and advances it. *)
Definition emits (w : bytes -> N -> jres (bytes * N)) (bs : bytes) : Prop :=
  forall buf off, off + lenN bs <= lenN buf ->
    w buf off = JOk (takeN off buf ++ bs ++ dropN (off + lenN bs) buf, off + lenN bs).

Lemma vset_ok buf off data : off + lenN data <= lenN buf ->
  vset buf off data = JOk (takeN off buf ++ data ++ dropN (off + lenN data) buf).
Proof. intros H. unfold vset. replace (off + lenN data <=? lenN buf) with true by lia. reflexivity. Qed.

Lemma written_len (buf : bytes) off bs : off + lenN bs <= lenN buf ->
  lenN (takeN off buf ++ bs ++ dropN (off + lenN bs) buf) = lenN buf.
Proof. intros H. rewrite !lenN_app, lenN_takeN, lenN_dropN. lia. Qed.

Lemma written_twice (buf : bytes) off b1 b2 : off + lenN b1 + lenN b2 <= lenN buf ->
  let buf1 := takeN off buf ++ b1 ++ dropN (off + lenN b1) buf in
  takeN (off + lenN b1) buf1 ++ b2 ++ dropN (off + lenN b1 + lenN b2) buf1 =
  takeN off buf ++ (b1 ++ b2) ++ dropN (off + lenN (b1 ++ b2)) buf.
Proof.
  intros H buf1. subst buf1. rewrite lenN_app.
  assert (lenN (takeN off buf ++ b1) = off + lenN b1) as Hl
    by (rewrite lenN_app, lenN_takeN; lia).
  rewrite (app_assoc (takeN off buf) b1).
  rewrite (takeN_app_eq (off + lenN b1)) by lia.
  replace (off + lenN b1 + lenN b2) with (lenN (takeN off buf ++ b1) + lenN b2) at 1 by lia.
  rewrite <- dropN_dropN, dropN_app, dropN_dropN.
  replace (off + lenN b1 + lenN b2) with (off + (lenN b1 + lenN b2)) by lia.
  now rewrite <- !app_assoc.
Qed.

Definition wr (buf : bytes) (off : N) (d : bytes) : bytes :=
  takeN off buf ++ d ++ dropN (off + lenN d) buf.
Lemma wr_nil buf off : wr buf off [] = buf.
Proof. unfold wr. cbn [app]. rewrite lenN_nil, N.add_0_r. apply take_drop. Qed.
Lemma vset_wr buf off d1 o2 d2 : o2 = off + lenN d1 -> o2 + lenN d2 <= lenN buf ->
  vset (wr buf off d1) o2 d2 = JOk (wr buf off (d1 ++ d2)).
Proof.
  intros -> H. rewrite vset_ok by (unfold wr; rewrite written_len; lia).
  f_equal. unfold wr. apply written_twice. lia.
Qed.
Lemma vset_wr0 buf off d : off + lenN d <= lenN buf -> vset buf off d = JOk (wr buf off d).
Proof. apply vset_ok. Qed.

Lemma le_bytes_app a b x : le_bytes (a + b) x = le_bytes a x ++ le_bytes b (x / 2 ^ (8 * N.of_nat a)).
Proof.
  revert x. induction a as [|a IH]; intros x; cbn [le_bytes Nat.add app].
  - change (8 * N.of_nat 0) with 0. now rewrite N.div_1_r.
  - rewrite IH, pow_S, N.div_div by (try apply N.pow_nonzero; discriminate). reflexivity.
Qed.
Lemma le_bytes_mod k x : le_bytes k (x mod 2 ^ (8 * N.of_nat k)) = le_bytes k x.
Proof.
  revert x. induction k as [|k IH]; intros x; [reflexivity|]. cbn [le_bytes]. rewrite pow_S.
  assert (2 ^ (8 * N.of_nat k) <> 0) as Hp by (apply N.pow_nonzero; discriminate).
  f_equal.
  - rewrite N.mod_mul_r by (auto; discriminate). rewrite (N.mul_comm 256), N.mod_add by discriminate.
    apply N.mod_mod. discriminate.
  - rewrite <- (IH (x / 256)). f_equal. rewrite N.mod_mul_r by (auto; discriminate).
    rewrite (N.mul_comm 256), N.div_add by discriminate. rewrite N.div_small by (apply N.mod_lt; discriminate).
    reflexivity.
Qed.
Lemma u8_first_ts v k : 1 <= k <= 7 ->
  N.shiftl v k mod 256 = u8 (shl64 v k).
Proof.
  intros Hk. unfold u8. rewrite shl64_mul, N.shiftl_mul_pow2. unfold two64.
  assert (k = 1 \/ k = 2 \/ k = 3 \/ k = 4 \/ k = 5 \/ k = 6 \/ k = 7) as Hc by lia.
  destruct Hc as [-> | [-> | [-> | [-> | [-> | [-> | -> ]]]]]];
    match goal with |- context [2 ^ ?e] => let a := eval vm_compute in (2 ^ e) in
        change (2 ^ e) with a end; lia.
Qed.
Lemma le1_lor v k : 1 <= k <= 7 -> v < two64 ->
  le_bytes 1 (N.lor (N.shiftl v k mod 256) (2 ^ (k - 1))) = [(v * 2 ^ k + 2 ^ (k - 1)) mod 256].
Proof.
  intros Hk Hv. rewrite u8_first_ts by exact Hk. rewrite first_byte_eq by assumption.
  cbn [le_bytes]. f_equal. apply N.mod_mod. discriminate.
Qed.

Lemma le_mod1 x : le_bytes 1 (x mod 256) = le_bytes 1 x. Proof. exact (le_bytes_mod 1 x). Qed.
Lemma le_mod2 x : le_bytes 2 (x mod 65536) = le_bytes 2 x. Proof. exact (le_bytes_mod 2 x). Qed.
Lemma le_mod4 x : le_bytes 4 (x mod 4294967296) = le_bytes 4 x. Proof. exact (le_bytes_mod 4 x). Qed.
Lemma shiftr_shiftr x a b : x / 2 ^ a / 2 ^ b = N.shiftr x (a + b).
Proof.
  rewrite N.shiftr_div_pow2, N.pow_add_r, N.div_div by (apply N.pow_nonzero; discriminate).
  reflexivity.
Qed.

Lemma emits_varint n : n < two64 -> emits (fun buf off => ts_serialize_varint buf off n) (spec_varint n).
Proof.
  intros Hn buf off Hb. change (takeN off buf ++ spec_varint n ++ dropN (off + lenN (spec_varint n)) buf)
    with (wr buf off (spec_varint n)).
  rewrite spec_varint_length in * by exact Hn.
  rewrite <- ts_varint_size_eq in *. unfold ts_varint_size in Hb |- *.
  unfold ts_serialize_varint, spec_varint.
  repeat match goal with |- context [if ?c then _ else _] => destruct c eqn:? end;
    repeat (rewrite vset_wr0 by (rewrite lenN_le_bytes; lia); cbn [jbind]);
    repeat (rewrite vset_wr by (repeat rewrite lenN_app; rewrite ?lenN_le_bytes; lia); cbn [jbind]);
    do 3 f_equal; unfold two64 in Hn;
    try rewrite embed_split by lia; cbn [Nat.sub app];
    rewrite <- ?app_assoc.
  - change (le_bytes 0 _) with (@nil N). cbn [le_bytes]. f_equal.
    change (2 ^ N.of_nat 1) with 2. change (2 ^ (N.of_nat 1 - 1)) with 1.
    rewrite N.shiftl_mul_pow2. change (2 ^ 1) with 2. rewrite (lor_add _ _ 1); [reflexivity| |reflexivity].
    change (2 ^ 1) with 2. lia.
  - change 2 with (2 ^ (2 - 1)) at 2. rewrite le1_lor by (unfold two64; lia). cbn [app].
    f_equal. now rewrite N.shiftr_div_pow2.
  - change 4 with (2 ^ (3 - 1)) at 1. rewrite le1_lor by (unfold two64; lia). cbn [app].
    f_equal. now rewrite le_mod2, N.shiftr_div_pow2.
  - change 8 with (2 ^ (4 - 1)) at 1. rewrite le1_lor by (unfold two64; lia). cbn [app].
    f_equal. rewrite le_mod1, le_mod2. change 3%nat with (1 + 2)%nat. rewrite le_bytes_app.
    rewrite shiftr_shiftr. now rewrite N.shiftr_div_pow2.
  - change 16 with (2 ^ (5 - 1)) at 1. rewrite le1_lor by (unfold two64; lia). cbn [app].
    f_equal. now rewrite le_mod4, N.shiftr_div_pow2.
  - change 32 with (2 ^ (6 - 1)) at 1. rewrite le1_lor by (unfold two64; lia). cbn [app].
    f_equal. rewrite le_mod1, le_mod4. change 5%nat with (1 + 4)%nat. rewrite le_bytes_app.
    rewrite shiftr_shiftr. now rewrite N.shiftr_div_pow2.
  - change 64 with (2 ^ (7 - 1)) at 1. rewrite le1_lor by (unfold two64; lia). cbn [app].
    f_equal. rewrite le_mod2, le_mod4. change 6%nat with (2 + 4)%nat. rewrite le_bytes_app.
    rewrite shiftr_shiftr. now rewrite N.shiftr_div_pow2.
  - change (le_bytes 1 128) with [128]. cbn [app]. f_equal.
    { change (2 ^ N.of_nat 8) with 256. change (2 ^ (N.of_nat 8 - 1)) with 128. lia. }
    rewrite le_mod1, le_mod2, le_mod4. change (2 ^ (8 - N.of_nat 8)) with 1. rewrite N.div_1_r.
    change 7%nat with (1 + (2 + 4))%nat. rewrite !le_bytes_app.
    rewrite !shiftr_shiftr. rewrite !N.shiftr_div_pow2. reflexivity.
Qed.

Lemma emits_ext w1 w2 bs : (forall buf off, w1 buf off = w2 buf off) -> emits w1 bs -> emits w2 bs.
Proof. intros H H1 buf off Hb. rewrite <- H. now apply H1. Qed.

Lemma emits_bind w1 w2 b1 b2 : emits w1 b1 -> emits w2 b2 ->
  emits (fun buf off => jbind (w1 buf off) (fun bo => w2 (fst bo) (snd bo))) (b1 ++ b2).
Proof.
  intros H1 H2 buf off Hb. rewrite lenN_app in *. rewrite H1 by lia. cbn [jbind fst snd].
  rewrite H2 by (rewrite written_len; lia). rewrite N.add_assoc. do 2 f_equal.
  rewrite written_twice by lia. rewrite lenN_app. now rewrite N.add_assoc.
Qed.

(** Header tags: TypeScript shifts an unbounded integer. *)
Lemma ts_tag i m : m < 4 -> N.lor (N.shiftl i 2) m = 4 * i + m.
Proof.
  intros Hm. rewrite N.shiftl_mul_pow2. rewrite (lor_add _ _ 2); change (2 ^ 2) with 4; lia.
Qed.
Lemma ts_tag0 i : N.shiftl i 2 = 4 * i.
Proof. rewrite N.shiftl_mul_pow2. change (2 ^ 2) with 4. lia. Qed.

Lemma ts_header_size_eq i size ie : i <= max_index ->
  ts_header_size i size ie = field_header_size i size ie.
Proof.
  intros Hi. unfold ts_header_size, field_header_size.
  rewrite !tag_eq, !ts_tag, ts_tag0, !ts_varint_size_eq, N.add_0_r by (try exact Hi; lia). reflexivity.
Qed.

Lemma emits_header i size ie : i <= max_index -> size < two64 ->
  emits (fun buf off => ts_serialize_header buf off i size ie) (spec_header i size ie).
Proof.
  intros Hi Hs. unfold ts_serialize_header, spec_header.
  rewrite !ts_tag, ts_tag0 by lia.
  destruct (size =? 0); [apply emits_varint; pose proof (tag_lt i 0 Hi); lia|].
  destruct (size =? 8); [apply emits_varint, (tag_lt i 1 Hi); lia|].
  destruct ie; [apply emits_varint, (tag_lt i 2 Hi); lia|].
  apply (emits_bind (fun buf off => ts_serialize_varint buf off (4 * i + 3))
                    (fun buf off => ts_serialize_varint buf off size));
    apply emits_varint; [apply (tag_lt i 3 Hi); lia|exact Hs].
Qed.
