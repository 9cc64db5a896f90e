(** Property theorems: C88. See MANIFEST.json. *)
From Verif Require Import ForwardFacts Examples1.

(** C88: a message that was read from any bytes (with unknown or repeated fields, with headers of any form, cut short, ...) and
    that can be sent as it is is read again as the same message. *)
Theorem forwarded_messages_are_unchanged : forall lim t bs v rest bs', ty_wf t -> bytes_ok bs ->
  deserialize lim t bs = Ok v rest -> wt DOut v t -> size v t < 2 ^ 60 -> serialize v t = Some bs' ->
  deserialize isize_max t bs' = Ok v [].
Proof.
  intros lim t bs v rest bs' Ht Hb E Hw Hs E'. pose proof (deserialized_typed lim t bs v rest Ht Hb E) as Hi.
  pose proof (roundtrip60 v t bs' Hw Ht Hs E') as H. now rewrite (to_in_same v t Hi Hw) in H.
Qed.
Print Assumptions forwarded_messages_are_unchanged.
(** If no field of the type is asymmetric, every message that was read can be sent: a relay that reads and writes never fails,
    its output is read as the same message, and its length is bounded. *)
Theorem symmetric_messages_can_be_forwarded : forall lim t bs v rest, ty_wf t -> symmetric t -> bytes_ok bs ->
  breadth t * (lenN bs + 1) < 2 ^ 55 -> deserialize lim t bs = Ok v rest ->
  wt DOut v t /\ exists bs', serialize v t = Some bs' /\ bytes_ok bs' /\ deserialize isize_max t bs' = Ok v [] /\
    lenN bs' <= 18 * breadth t * (lenN bs + 1).
Proof.
  intros lim t bs v rest Ht Hsym Hb Hsmall E. pose proof (deserialized_typed lim t bs v rest Ht Hb E) as Hi.
  pose proof (symmetric_wt v t Hsym Hi) as Hw. split; [exact Hw|].
  pose proof (deserialize_light 0 lim t bs v rest Ht (or_introl eq_refl) Hb E) as Hl. pose proof (encode_compact v t true) as Hc.
  assert (size v t < 2 ^ 60) as Hs by (rewrite size_exact by assumption; lia).
  assert (size v t < two64) as Hs2 by (unfold two64; lia).
  exists (spec_encode true v t). pose proof (serialize_spec v t Hw Ht Hs2) as E'. split; [exact E'|].
  split; [apply spec_encode_ok; [exact Hw|exact Ht|unfold two64; lia]|]. split; [|lia].
  pose proof (roundtrip60 v t _ Hw Ht Hs E') as H. now rewrite (to_in_same v t Hi Hw) in H.
Qed.
Print Assumptions symmetric_messages_can_be_forwarded.
(** From then on the bytes do not change any more: whoever reads and writes the forwarded message writes the same bytes. *)
Theorem forwarding_is_stable : forall lim t bs v rest bs' v' rest', ty_wf t -> bytes_ok bs ->
  deserialize lim t bs = Ok v rest -> wt DOut v t -> size v t < 2 ^ 60 -> serialize v t = Some bs' ->
  deserialize isize_max t bs' = Ok v' rest' -> v' = v /\ rest' = [] /\ serialize v' t = Some bs'.
Proof.
  intros lim t bs v rest bs' v' rest' Ht Hb E Hw Hs E' E2.
  rewrite (forwarded_messages_are_unchanged lim t bs v rest bs' Ht Hb E Hw Hs E') in E2. injection E2 as <- <-. auto.
Qed.
Print Assumptions forwarding_is_stable.
(** With asymmetric fields it is not always possible: the field may be missing from what was read. *)
Theorem every_message_can_be_forwarded_refuted :
  ~ (forall t bs v rest, ty_wf t -> bytes_ok bs -> deserialize isize_max t bs = Ok v rest -> wt DOut v t).
Proof.
  intros H. assert (ty_wf (TStruct [mkF 0 Asymmetric TBool])) as Ht by wf.
  specialize (H (TStruct [mkF 0 Asymmetric TBool]) [] (VStruct [None]) [] Ht ltac:(constructor) ltac:(vm_compute; reflexivity)).
  cbn in H. destruct H as [H _]. discriminate H.
Qed.
Print Assumptions every_message_can_be_forwarded_refuted.
