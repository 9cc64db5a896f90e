(** Property theorems: C86. See MANIFEST.json. *)
From Verif Require Import FootprintTs2 TruncFacts2 Examples1.

(** C86: what the generated Rust makes of a message is never larger than a constant of the type times the number of bytes. (The
    capacity it reserves is another matter: C20.) The elements of [[Unit]] take no space in Rust. *)
Theorem decoded_messages_are_linear : forall lim t bs v rest, ty_wf t -> bytes_ok bs ->
  deserialize lim t bs = Ok v rest -> weight 0 v <= breadth t * (lenN bs + 1).
Proof. intros lim t bs v rest Ht Hb. apply deserialize_light; auto. Qed.
Print Assumptions decoded_messages_are_linear.
(** The same if units are counted, for the types without [[Unit]]. *)
Theorem decoded_messages_without_unit_arrays_are_linear : forall lim t bs v rest, ty_wf t -> no_unit_arrays t -> bytes_ok bs ->
  deserialize lim t bs = Ok v rest -> weight 1 v <= breadth t * (lenN bs + 1).
Proof. intros lim t bs v rest Ht Hn Hb. apply deserialize_light; auto. Qed.
Print Assumptions decoded_messages_without_unit_arrays_are_linear.
(** The same of the code with its buffered reader, however the input is divided. *)
Theorem read_messages_are_linear : forall lim t chunks fuel v r, ty_wf t -> chunks_ok chunks ->
  (length (concat chunks) < fuel)%nat -> cdeserialize fuel lim t chunks = COk v r ->
  weight 0 v <= breadth t * (lenN (concat chunks) + 1).
Proof.
  intros lim t chunks fuel v r Ht Hc Hf E. pose proof (chunked_outcome lim t chunks fuel Ht Hc Hf) as H. rewrite E in H. cbn [outcome_of] in H.
  destruct (deserialize lim t (concat chunks)) as [v' rest|e| | |] eqn:Ed; cbn [outcome_of_res] in H; try discriminate H. injection H as ->.
  eapply deserialize_light; [exact Ht|now left|exact (proj2 Hc)|exact Ed].
Qed.
Print Assumptions read_messages_are_linear.
(** A value read from within a larger message: [used] are the bytes it took. *)
Theorem decoded_parts_are_linear : forall lim t isf psz used rest v, ty_wf t -> bytes_ok (used ++ rest) ->
  decode lim t isf psz (used ++ rest) = Ok v rest -> weight 0 v <= breadth t * (lenN used + 1).
Proof.
  intros lim t isf psz used rest v Ht Hb E. pose proof (decode_light 0 lim t Ht (or_introl eq_refl) isf psz _ Hb) as P. rewrite E in P.
  destruct P as [_ P]. unfold light in P. rewrite lenN_app in P. nia.
Qed.
Print Assumptions decoded_parts_are_linear.
(** If units are counted, [[Unit]] has to be excluded: eleven bytes make 2^64 - 1 units. *)
Theorem decoded_messages_are_linear_in_units_refuted : exists t bs v rest, user_defined t /\ ty_wf t /\ bytes_ok bs /\ lenN bs <= 11 /\
  deserialize isize_max t bs = Ok v rest /\ 2 ^ 63 <= weight 1 v.
Proof.
  exists (TStruct [mkF 0 Required (TArray TUnit)]), (spec_header 0 8 false ++ le_bytes 8 18446744073709551615), (VStruct [Some (VUnits 18446744073709551615)]), [].
  split; [exact I|]. split; [wf|]. split; [vm_compute; repeat constructor|]. split; [vm_compute; discriminate|].
  split; [vm_compute; reflexivity|vm_compute; discriminate].
Qed.
Print Assumptions decoded_messages_are_linear_in_units_refuted.

(** In TypeScript the bound is a polynomial in the length of the buffer; its degree is the depth of nesting. *)
Theorem ts_messages_are_polynomial : forall t w v, ty_wf t -> view_ok w -> ts_deserialize t w = TsMessage v ->
  weight 1 v <= ts_bound (lenN (vbuf w)) t.
Proof. exact ts_deserialize_bounded. Qed.
Print Assumptions ts_messages_are_polynomial.
(** It is not linear: an element may declare that its fields go on beyond its own end, and the bytes there are read again for
    every element. (Rust reads from a limited reader and stops at the end of the element.) *)
Theorem ts_messages_can_be_quadratic : forall n, 9 <= n < 2 ^ 30 -> exists bs v, bytes_ok bs /\ lenN bs <= 12 * n + 20 /\
  ts_deserialize (TStruct [mkF 0 Required (TArray (TStruct [mkF 0 Required TBytes]))]) (whole bs) = TsMessage v /\
  n * n <= weight 1 v.
Proof.
  intros n Hn. destruct (echo_decodes n Hn) as (v & E & Hw). exists (echo_message n), v.
  split; [now apply message_ok|]. split; [now apply message_len|]. now split.
Qed.
Print Assumptions ts_messages_can_be_quadratic.
Theorem ts_messages_are_linear_refuted :
  ~ (forall t bs v, ty_wf t -> no_unit_arrays t -> bytes_ok bs -> ts_deserialize t (whole bs) = TsMessage v ->
       weight 1 v <= 1000000 * (breadth t * (lenN bs + 1))).
Proof.
  intros H. destruct (ts_messages_can_be_quadratic 1000000000 ltac:(lia)) as (bs & v & Hb & Hl & E & Hw).
  assert (ty_wf (TStruct [mkF 0 Required (TArray (TStruct [mkF 0 Required TBytes]))])) as Ht by wf.
  specialize (H _ bs v Ht ltac:(cbn; repeat split) Hb E). cbn [breadth map sumN f_type] in H. lia.
Qed.
Print Assumptions ts_messages_are_linear_refuted.
(** And [[Unit]] costs an array of [null]s there: nine bytes make more than 4 * 10^9 of them. *)
Theorem ts_unit_arrays_are_large : exists t bs v, user_defined t /\ ty_wf t /\ bytes_ok bs /\ lenN bs <= 9 /\
  ts_deserialize t (whole bs) = TsMessage v /\ 4000000000 <= weight 1 v.
Proof.
  exists (TStruct [mkF 0 Required (TArray TUnit)]), (spec_header 0 8 false ++ le_bytes 8 4294967295), (VStruct [Some (VUnits 4294967295)]).
  split; [exact I|]. split; [wf|]. split; [vm_compute; repeat constructor|]. split; [vm_compute; discriminate|].
  split; [vm_compute; reflexivity|vm_compute; discriminate].
Qed.
Print Assumptions ts_unit_arrays_are_large.
