(** Property theorems: C87. See MANIFEST.json. *)
From Verif Require Import CompactFacts Examples1.

(** C87: a message takes at most 18 bytes for each of the things it consists of (C86), headers and sizes included: first what
    the generated [size] says, then what Rust and TypeScript write. *)
Theorem message_sizes_are_linear : forall v t, wt DOut v t -> ty_wf t -> size v t + 9 <= 18 * weight 0 v.
Proof. intros v t Hw Ht. rewrite size_exact by assumption. apply encode_compact. Qed.
Print Assumptions message_sizes_are_linear.
Theorem serialized_messages_are_linear : forall v t bs, wt DOut v t -> ty_wf t -> size v t < two64 ->
  serialize v t = Some bs -> lenN bs + 9 <= 18 * weight 0 v.
Proof. intros v t bs Hw Ht Hs E. rewrite serialize_spec in E by assumption. injection E as <-. apply encode_compact. Qed.
Print Assumptions serialized_messages_are_linear.
Theorem ts_serialized_messages_are_linear : forall v t bs, wt DOut v t -> ty_wf t -> size v t < 2 ^ 53 ->
  ts_serialize v t = JOk bs -> lenN bs + 9 <= 18 * weight 0 v.
Proof.
  intros v t bs Hw Ht Hs E. destruct (ts_fills_buffer v t Hw Ht Hs) as (bs' & _ & E2 & El & Es & _). rewrite E in E2. injection E2 as <-.
  rewrite El, Es. now apply message_sizes_are_linear.
Qed.
Print Assumptions ts_serialized_messages_are_linear.
(** Passing a message on: what was read from [bs] and can be sent as it is (no asymmetric part is missing) takes, written anew,
    at most a constant of the type times the bytes it was read from. *)
Theorem forwarded_messages_are_linear : forall lim t bs v rest bs', ty_wf t -> bytes_ok bs ->
  deserialize lim t bs = Ok v rest -> wt DOut v t -> size v t < two64 -> serialize v t = Some bs' ->
  lenN bs' <= 18 * breadth t * (lenN bs + 1).
Proof.
  intros lim t bs v rest bs' Ht Hb E Hw Hs E'. pose proof (serialized_messages_are_linear v t bs' Hw Ht Hs E') as H1.
  pose proof (deserialize_light 0 lim t bs v rest Ht (or_introl eq_refl) Hb E) as H2. nia.
Qed.
Print Assumptions forwarded_messages_are_linear.
(** It can indeed grow: a field may use a shorter header than the encoder writes (a struct of one byte, with the size taken from
    that byte). *)
Theorem forwarded_messages_never_grow_refuted :
  ~ (forall lim t bs v rest bs', ty_wf t -> bytes_ok bs -> deserialize lim t bs = Ok v rest -> wt DOut v t ->
       serialize v t = Some bs' -> lenN bs' <= lenN bs).
Proof.
  intros H.
  assert (ty_wf (TStruct [mkF 0 Required (TStruct [mkF 0 Required TBool])])) as Ht by wf.
  specialize (H isize_max (TStruct [mkF 0 Required (TStruct [mkF 0 Required TBool])]) (spec_varint 2 ++ spec_varint 0)
    (VStruct [Some (VStruct [Some (VBool false)])]) [] (spec_encode true (VStruct [Some (VStruct [Some (VBool false)])]) (TStruct [mkF 0 Required (TStruct [mkF 0 Required TBool])]))
    Ht ltac:(vm_compute; repeat constructor) ltac:(vm_compute; reflexivity) ltac:(cbn; tauto) ltac:(vm_compute; reflexivity)).
  vm_compute in H. now apply H.
Qed.
Print Assumptions forwarded_messages_never_grow_refuted.
