(** A family of messages of which the generated TypeScript makes values of quadratic size: every element of an array claims
    that its [Bytes] extend far beyond the element. *)
From Verif Require Export FootprintFacts TsTop.
From Coq Require Import Lia.

Lemma ts_header_at w off i sz r : view_ok w -> i <= max_index -> sz < two64 -> vrest w off = spec_header i sz false ++ r ->
  ts_deserialize_header w off = JOk (off + lenN (spec_header i sz false), i, sz) /\
  vrest w (off + lenN (spec_header i sz false)) = r /\ off + lenN (spec_header i sz false) <= vlen w.
Proof.
  intros Hv Hi Hs E.
  assert (bytes_ok r) as Hr by (pose proof (vrest_ok w off Hv) as H; rewrite E in H; now apply bytes_ok_app in H).
  assert (deserialize_field_header (vrest w off) = Ok (i, sz) r) as Hd.
  { rewrite E, <- (serialize_header_spec i sz false Hi Hs). apply header_roundtrip; try assumption. intros H; discriminate H. }
  destruct (ts_header_step w off _ _ _ Hv Hd) as (Hoff & Er & Eh).
  pose proof (vrest_len w off Hv) as Hl. rewrite E, lenN_app in Hl.
  assert (vlen w - lenN r = off + lenN (spec_header i sz false)) as Eo by lia.
  rewrite Eo in *. repeat split; try assumption. lia.
Qed.

Definition echo_inner : ty := TStruct [mkF 0 Required TBytes].
Definition echo_type : ty := TStruct [mkF 0 Required (TArray echo_inner)].
Definition echo_header (n : N) : bytes := spec_header 0 n false.
Definition echo_element (n : N) : bytes := spec_varint (lenN (echo_header n)) ++ echo_header n.
Definition echo_array (n : N) : bytes := concat (repeat (echo_element n) (N.to_nat n)).
Definition echo_message (n : N) : bytes :=
  spec_header 0 (lenN (echo_array n)) false ++ echo_array n ++ spec_header 1 n false ++ repeat 0 (N.to_nat n).

Section N.
Context (n : N) (Hn : 9 <= n < 2 ^ 30).

Lemma n64 : n < two64. Proof. unfold two64. lia. Qed.

Lemma some_header_len i sz : i <= max_index -> sz < two64 -> 1 <= lenN (spec_header i sz false) <= 18.
Proof.
  intros Hi Hs. rewrite <- serialize_header_spec, <- header_size_spec by assumption. unfold field_header_size.
  pose proof (fun x => varint_size_range x) as R.
  repeat match goal with |- context [if ?c then _ else _] => destruct c end;
    repeat match goal with |- context [varint_size_from_value ?x] => pose proof (R x); generalize dependent (varint_size_from_value x); intros end; lia.
Qed.
Lemma small_header_len i sz : i <= 1 -> sz < two64 -> 1 <= lenN (spec_header i sz false) <= 10.
Proof.
  intros Hi Hs. assert (i <= max_index) as Hm by (unfold max_index; lia).
  rewrite <- serialize_header_spec, <- header_size_spec by assumption. unfold field_header_size.
  pose proof (varint_size_range sz) as R.
  assert (forall m, m < 4 -> varint_size_from_value (N.lor (shl64 i 2) m) = 1) as Hone.
  { intros m Hm4. assert (i = 0 \/ i = 1) as [-> | ->] by lia; assert (m = 0 \/ m = 1 \/ m = 2 \/ m = 3) as [->|[->|[->| ->]]] by lia; reflexivity. }
  rewrite !Hone by lia. repeat match goal with |- context [if ?c then _ else _] => destruct c end; lia.
Qed.
Lemma header_len : 1 <= lenN (echo_header n) <= 10.
Proof. apply small_header_len; [lia|exact n64]. Qed.
Lemma element_len : lenN (echo_element n) = 1 + lenN (echo_header n).
Proof.
  unfold echo_element. pose proof header_len. rewrite lenN_app, spec_varint_length by (unfold two64; lia).
  unfold varint_size_from_value. destruct (lenN (echo_header n) <=? 127) eqn:E; [reflexivity|lia].
Qed.
Lemma repeat_len k : lenN (concat (repeat (echo_element n) k)) = N.of_nat k * (1 + lenN (echo_header n)).
Proof. induction k as [|k IH]; [reflexivity|]. cbn [repeat concat]. rewrite lenN_app, IH, element_len. lia. Qed.
Lemma array_len : lenN (echo_array n) = n * (1 + lenN (echo_header n)).
Proof. unfold echo_array. rewrite repeat_len. f_equal. lia. Qed.
Lemma array_small : lenN (echo_array n) < two64.
Proof. rewrite array_len. pose proof header_len. unfold two64. nia. Qed.

Lemma zeros_len k : lenN (repeat 0 k) = N.of_nat k.
Proof. unfold lenN. now rewrite repeat_length. Qed.

Lemma message_len : lenN (echo_message n) <= 12 * n + 20.
Proof.
  unfold echo_message. rewrite !lenN_app, array_len, zeros_len.
  pose proof header_len. pose proof (small_header_len 0 (n * (1 + lenN (echo_header n))) ltac:(lia) ltac:(unfold two64; nia)).
  pose proof (small_header_len 1 n ltac:(lia) n64). nia.
Qed.

Lemma message_ok : bytes_ok (echo_message n).
Proof.
  assert (bytes_ok (echo_header n)) as Hh by (apply spec_header_ok; [unfold max_index; lia|exact n64]).
  assert (bytes_ok (echo_element n)) as He.
  { apply bytes_ok_app. split; [|exact Hh]. apply spec_varint_ok. pose proof header_len. unfold two64. lia. }
  unfold echo_message. apply bytes_ok_app. split; [apply spec_header_ok; [unfold max_index; lia|exact array_small]|].
  apply bytes_ok_app. split.
  - unfold echo_array. induction (N.to_nat n) as [|k IH]; [constructor|]. cbn [repeat concat]. apply bytes_ok_app. now split.
  - apply bytes_ok_app. split; [apply spec_header_ok; [unfold max_index; lia|exact n64]|].
    apply Forall_forall. intros x Hx. apply repeat_spec in Hx as ->. unfold byte_ok. lia.
Qed.

Lemma inner_decodes isf psz w : view_ok w -> vrest w 0 = echo_header n -> vlen w = lenN (echo_header n) ->
  voff w + vlen w + n <= lenN (vbuf w) ->
  exists v, ts_decode echo_inner isf psz w 0 = JOk (vlen w, v) /\ n <= weight 1 v.
Proof.
  intros Hv E Hl Hroom. unfold echo_inner. cbn [ts_decode map f_index f_type].
  assert (exists F, length (vbuf w) = S F) as (F & ->).
  { destruct (vbuf w) as [|b l]; [unfold lenN in Hroom; cbn [length] in Hroom; lia|]. now exists (length l). }
  cbn [ts_struct_loop].
  destruct (ts_header_at w 0 0 n [] Hv ltac:(unfold max_index; lia) n64) as (-> & Er & Hle).
  { rewrite app_nil_r. exact E. }
  cbn [tassoc N.eqb]. change (0 =? 0) with true. cbn iota.
  fold (echo_header n) in *. unfold new_view at 1.
  replace (voff w + (0 + lenN (echo_header n)) + n <=? lenN (vbuf w)) with true by lia.
  cbn [jbind ts_decode fst snd vlen voff vbuf].
  assert (vrest w (n + (0 + lenN (echo_header n))) = []) as Eend.
  { unfold vrest. replace (vlen w - _) with 0 by lia. apply takeN_0. }
  destruct (ts_end w _ Hv Eend) as (-> & _). cbn [jbind].
  unfold ts_missing. cbn [existsb f_rule f_index tassoc]. change (0 =? 0) with true. cbn [orb map tassoc f_index]. change (0 =? 0) with true. cbn iota.
  eexists. split; [reflexivity|]. cbn [weight map sumN]. rewrite lenN_takeN, lenN_dropN. lia.
Qed.

Lemma array_decodes w : view_ok w -> voff w + vlen w + n <= lenN (vbuf w) ->
  forall k off fuel, (k < fuel)%nat -> off <= vlen w -> vrest w off = concat (repeat (echo_element n) k) ->
  exists vs, ts_sized_loop fuel (ts_decode echo_inner false) w off = JOk (vlen w, vs) /\ N.of_nat k * n <= sumN (map (weight 1) vs).
Proof.
  intros Hv Hroom. induction k as [|k IH]; intros off fuel Hf Ho E; (destruct fuel as [|fuel]; [lia|]); cbn [ts_sized_loop].
  - destruct (ts_end w off Hv E) as (_ & -> & _). exists []. split; [|cbn [map sumN]; lia].
    pose proof (vrest_len w off Hv) as Hl. rewrite E in Hl. change (lenN (concat (repeat (echo_element n) 0))) with 0 in Hl. do 2 f_equal. lia.
  - cbn [repeat concat] in E. unfold echo_element in E at 1. rewrite <- app_assoc in E.
    pose proof header_len as Hh.
    destruct (ts_varint_at w off (lenN (echo_header n)) _ Hv ltac:(unfold two64; lia) E) as (-> & Er & Hle).
    set (off1 := off + lenN (spec_varint (lenN (echo_header n)))) in *.
    destruct (new_view_sub w off1 _ _ Hv Hle Er) as (w' & En & Hv' & Hl' & Er'). rewrite En. cbn [jbind].
    assert (voff w' = voff w + off1 /\ vbuf w' = vbuf w) as [Eo Eb].
    { unfold new_view in En. destruct (_ <=? _); [|discriminate En]. injection En as <-. now split. }
    pose proof (vrest_len w off1 Hv) as Hlen. rewrite Er, lenN_app in Hlen.
    destruct (inner_decodes false (lenN (echo_header n)) w' Hv' Er' Hl') as (v & -> & Hw).
    { rewrite Eo, Eb, Hl'. lia. }
    cbn [jbind fst snd].
    destruct (IH (vlen w' + off1) fuel ltac:(lia)) as (vs & -> & Hs).
    { lia. }
    { rewrite Hl', N.add_comm. now apply vrest_app. }
    unfold jsnd. cbn [jbind fst snd]. eexists. split; [reflexivity|]. cbn [map sumN]. lia.
Qed.

Lemma echo_decodes : exists v, ts_deserialize echo_type (whole (echo_message n)) = TsMessage v /\ n * n <= weight 1 v.
Proof.
  set (w := whole (echo_message n)).
  assert (view_ok w) as Hv by (split; [cbn; lia|exact message_ok]).
  assert (vlen w = lenN (echo_message n)) as Hl by reflexivity.
  assert (vrest w 0 = echo_message n) as E.
  { unfold vrest, w, whole. cbn [vlen voff vbuf]. rewrite N.sub_0_r, dropN_0. now apply takeN_all. }
  pose proof array_small as Ha.
  unfold ts_deserialize.
  change (ts_decode echo_type true (vlen w) w 0) with
    (jbind (ts_struct_loop (S (length (vbuf w))) [(0, ts_decode (TArray echo_inner) true)] [] w 0)
       (fun slots => if ts_missing [mkF 0 Required (TArray echo_inner)] slots then JError else JOk (vlen w, VStruct [tassoc 0 slots]))).
  assert (exists F, length (vbuf w) = S (S F) /\ (N.to_nat n <= F)%nat) as (F & EF & HF).
  { assert (n + 2 <= lenN (echo_message n)) as Hm.
    { unfold echo_message. rewrite !lenN_app, zeros_len, array_len. pose proof header_len. nia. }
    exists (length (vbuf w) - 2)%nat. change (vbuf w) with (echo_message n). unfold lenN in Hm. lia. }
  rewrite EF. cbn [ts_struct_loop].
  destruct (ts_header_at w 0 0 (lenN (echo_array n)) (echo_array n ++ spec_header 1 n false ++ repeat 0 (N.to_nat n)) Hv ltac:(unfold max_index; lia) Ha) as (-> & Er & Hle).
  { rewrite E. reflexivity. }
  set (off1 := 0 + lenN (spec_header 0 (lenN (echo_array n)) false)) in *.
  cbn [tassoc]. change (0 =? 0) with true. cbn iota.
  destruct (new_view_sub w off1 _ _ Hv Hle Er) as (w' & En & Hv' & Hl' & Er'). rewrite En. cbn [jbind].
  assert (voff w' = voff w + off1 /\ vbuf w' = vbuf w) as [Eo Eb].
  { unfold new_view in En. destruct (_ <=? _); [|discriminate En]. injection En as <-. now split. }
  pose proof (vrest_len w off1 Hv) as Hlen. rewrite Er, !lenN_app, zeros_len in Hlen.
  change (ts_decode (TArray echo_inner) true (lenN (echo_array n)) w' 0)
    with (jsnd VArr (ts_sized_loop (S (length (vbuf w'))) (ts_decode echo_inner false) w' 0)).
  destruct (array_decodes w' Hv') with (k := N.to_nat n) (off := 0) (fuel := S (length (vbuf w'))) as (vs & Hvs & Hw).
  { rewrite Eo, Eb, Hl'. change (voff w) with 0. change (lenN (vbuf w)) with (vlen w). lia. }
  { rewrite Eb, EF. lia. }
  { lia. }
  { exact Er'. }
  rewrite Hvs. unfold jsnd at 1. cbn [jbind fst snd].
  assert (vrest w (vlen w' + off1) = spec_header 1 n false ++ repeat 0 (N.to_nat n)) as E2 by (rewrite Hl', N.add_comm; now apply vrest_app).
  destruct (ts_header_at w (vlen w' + off1) 1 n _ Hv ltac:(unfold max_index; lia) n64 E2) as (-> & Er2 & Hle2).
  cbn [tassoc]. change (0 =? 1) with false. cbn iota.
  pose proof (vrest_len w (vlen w' + off1 + lenN (spec_header 1 n false)) Hv) as Hlen2. rewrite Er2, zeros_len in Hlen2.
  match goal with |- context [ts_deserialize_header w ?o] => assert (vrest w o = []) as Eend end.
  { unfold vrest. replace (vlen w - _) with 0 by lia. apply takeN_0. }
  destruct (ts_end w _ Hv Eend) as (-> & _).
  cbn [jbind]. unfold ts_missing. cbn [existsb f_rule f_index tassoc]. change (0 =? 0) with true. cbn [orb map tassoc f_index]. change (0 =? 0) with true. cbn iota.
  eexists. split; [reflexivity|]. cbn [weight map sumN] in *. lia.
Qed.
End N.
