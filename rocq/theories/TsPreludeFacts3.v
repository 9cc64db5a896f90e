(** Headers of fields. *)
From Verif Require Import TypesFacts IdentFacts BaseFacts TsPrimFacts.
From Verif Require Export TsPreludeFacts2.

Lemma jbind_ok {A B} (x : jres A) (k : A -> jres B) b : jbind x k = JOk b -> exists a, x = JOk a /\ k a = JOk b.
Proof. destruct x; cbn [jbind]; try discriminate. intros H. now exists a. Qed.
Lemma serialize_varint_length buf off n buf' off' : ts_serialize_varint buf off n = JOk (buf', off') -> lenN buf' = lenN buf.
Proof.
  unfold ts_serialize_varint. cbv zeta. intros H.
  repeat match type of H with (if ?c then _ else _) = _ => destruct c end;
    repeat (apply jbind_ok in H as (? & ?E & H)); injection H as <- <-;
    repeat match goal with V : vset _ _ _ = JOk _ |- _ => apply vset_length in V end; congruence.
Qed.
Section Prelude.
Context (rounds : nat) (find : scope -> jcallee -> option (scope * jfn)) (reach : scope -> str -> bool) (Hg : good_scope find reach []).
Context (Hr : (9 <= rounds)%nat).
Notation run := (run_jfn rounds find reach).
Ltac jfn_call := erewrite callee_fn; [|jlocal|jprelude].
Lemma put_varint d t h buf off n buf' off' : nth_error h t = Some (CellBuf buf) -> ts_serialize_varint buf off n = JOk (buf', off') ->
  run (S d) [] fn_serialize_varint [JvView t 0 (lenN buf); JvNum off; JvBig (Z.of_N n)] h = ExVal (JvNum off') (put t (CellBuf buf') h).
Proof.
  intros H1 H2. rewrite <- (put_same _ _ _ H1) at 1. apply call_serialize_varint; auto. now apply nth_lt in H1.
Qed.
Lemma call_header_size d i size ie h :
  run (S (S d)) [] fn_header_size [JvBig (Z.of_N i); JvNum size; JvBool ie] h = ExVal (JvNum (ts_header_size i size ie)) h.
Proof.
  unfold fn_header_size. cbv zeta. tsc. jenter. js. unfold ts_header_size.
  rewrite cases_cons. jop. destruct (size =? 0); [rewrite body_plain by reflexivity; jnum; jfn_call; rewrite call_varint_size by exact Hg; reflexivity|].
  rewrite cases_cons. jop. destruct (size =? 8); [rewrite body_plain by reflexivity; jnum; jfn_call; rewrite call_varint_size by exact Hg; reflexivity|].
  rewrite cases_default, body_plain by reflexivity. jop. destruct ie.
  - jblock. jnum. jfn_call. rewrite call_varint_size by exact Hg. reflexivity.
  - jnum. jfn_call. rewrite call_varint_size by exact Hg. jnum. jfn_call. rewrite call_varint_size by exact Hg. jnum. reflexivity.
Qed.
Lemma call_serialize_header d t h buf off i size ie buf' off' : nth_error h t = Some (CellBuf buf) -> ts_serialize_header buf off i size ie = JOk (buf', off') ->
  run (S (S d)) [] fn_serialize_header [JvView t 0 (lenN buf); JvNum off; JvBig (Z.of_N i); JvNum size; JvBool ie] h = ExVal (JvNum off') (put t (CellBuf buf') h).
Proof.
  intros Ht. unfold fn_serialize_header, dv, off_param. cbv zeta. tsc. jenter. js. unfold ts_serialize_header.
  rewrite cases_cons. jop. destruct (size =? 0); [rewrite body_plain by reflexivity; jnum; jfn_call; intros H; erewrite put_varint by eassumption; reflexivity|].
  rewrite cases_cons. jop. destruct (size =? 8); [rewrite body_plain by reflexivity; jnum; jfn_call; intros H; erewrite put_varint by eassumption; reflexivity|].
  rewrite cases_default, body_plain by reflexivity. jop. destruct ie.
  - jblock. jnum. jfn_call. intros H. erewrite put_varint by eassumption. reflexivity.
  - jnum. jfn_call. intros H. destruct (ts_serialize_varint buf off _) as [[b1 o1]| | |] eqn:E1; cbn [jbind] in H; try discriminate.
    erewrite put_varint by eassumption. jnum. jfn_call. cbn [fst snd] in H.
    replace (lenN buf) with (lenN b1). 2:{ exact (serialize_varint_length _ _ _ _ _ E1). }
    erewrite put_varint; [|apply nth_put; now apply nth_lt in Ht|exact H]. rewrite put_put. reflexivity.
Qed.
Definition header_value (x : N * N * N) : jv := JvTuple [JvNum (fst (fst x)); JvBig (Z.of_N (snd (fst x))); JvNum (snd x)].
Lemma scratched_keeps h h' r bs : scratched h h' -> r <> O -> nth_error h r = Some (CellBuf bs) -> nth_error h' r = Some (CellBuf bs).
Proof. intros (s8 & _ & ->) H1 H2. rewrite nth_put_other; auto. Qed.
Lemma scratched_scratch h h' : scratched h h' -> scratch h -> scratch h'.
Proof. intros (s8 & H8 & ->) (s & Hs & _). exists s8. split; [|exact H8]. apply nth_put. now apply nth_lt in Hs. Qed.
Lemma scratched_trans h1 h2 h3 : scratched h1 h2 -> scratched h2 h3 -> scratched h1 h3.
Proof. intros (a & _ & ->) (b & Hb & ->). exists b. split; [exact Hb|apply put_put]. Qed.
Lemma call_deserialize_header d r off len bs o h : r <> O -> nth_error h r = Some (CellBuf bs) -> bytes_ok bs -> scratch h ->
  read_result header_value h (ts_deserialize_header (mkView bs off len) o) (run (S (S (S d))) [] fn_deserialize_header [JvView r off len; JvNum o] h).
Proof.
  intros Hr0 Hb Hbs Hs. unfold fn_deserialize_header, dv, off_param. cbv zeta. tsc. jenter. js. jfn_call. unfold ts_deserialize_header. cbv zeta.
  pose proof (call_deserialize_varint rounds find reach Hg Hr d r off len bs o h Hr0 Hb Hbs Hs) as H1.
  destruct (ts_deserialize_varint (mkView bs off len) o) as [[o1 tag]| | |]; cbn [read_result jbind] in H1 |- *; try contradiction.
  2:{ destruct H1 as (h1 & Hh1 & ->). exists h1. split; [exact Hh1|reflexivity]. }
  destruct H1 as (h1 & Hh1 & ->). unfold pair_value. cbn [fst snd]. jnum.
  repeat (rewrite cases_cons; jnum; rewrite zn_eqb; match goal with |- context [N.land tag 3 =? ?j] => destruct (N.land tag 3 =? j) end;
    [rewrite body_plain by reflexivity; jnum|]).
  - exists h1. split; [exact Hh1|reflexivity].
  - exists h1. split; [exact Hh1|reflexivity].
  - rewrite (get8_eq _ _ _ _ _ bs) by now apply scratched_keeps with h.
    pose proof (get_u8_cases (mkView bs off len) o1) as Hgot. pose proof (fun b => get_u8_byte (mkView bs off len) o1 b Hbs) as Hbyte.
    destruct (get_u8 (mkView bs off len) o1) as [b| | |]; try contradiction; cbn [jbind read_result]; [|exists h1; split; [exact Hh1|reflexivity]].
    jop. jfn_call. rewrite call_first_byte by auto. exists h1. split; [exact Hh1|reflexivity].
  - rewrite cases_default, body_braces. jblock. jop. jfn_call.
    pose proof (call_deserialize_varint rounds find reach Hg Hr d r off len bs o1 h1 Hr0 (scratched_keeps _ _ _ _ Hh1 Hr0 Hb) Hbs (scratched_scratch _ _ Hh1 Hs)) as H2.
    destruct (ts_deserialize_varint (mkView bs off len) o1) as [[o2 sz]| | |]; cbn [read_result jbind] in H2 |- *; try contradiction; destruct H2 as (h2 & Hh2 & ->);
      (exists h2; split; [exact (scratched_trans _ _ _ Hh1 Hh2)|]).
    + unfold pair_value. cbn [fst snd]. jnum. reflexivity.
    + reflexivity.
Qed.
End Prelude.
