(** C87: concrete messages. *)
From Verif Require Import CompactFacts Properties26 Examples23 Examples1.

Example compact_typed : wt DOut fp_value fp_type.
Proof.
  cbn. repeat split.
  all: try match goal with |- bytes_ok _ => unfold bytes_ok, byte_ok; repeat (apply Forall_cons; [lia|]); apply Forall_nil end.
  all: match goal with |- str_ok _ => apply Forall_cons; [left; lia|apply Forall_nil] end.
Qed.
Example compact_bytes : exists bs, serialize fp_value fp_type = Some bs /\ lenN bs = 24 /\ ts_serialize fp_value fp_type = JOk bs /\
  lenN bs + 9 <= 18 * weight 0 fp_value.
Proof.
  exists (spec_encode true fp_value fp_type). split; [vm_compute; reflexivity|]. split; [vm_compute; reflexivity|]. split; [vm_compute; reflexivity|].
  apply (serialized_messages_are_linear fp_value fp_type); [exact compact_typed|exact fp_wf|reflexivity|vm_compute; reflexivity].
Qed.
(** Close to the bound: one field with the largest index. Its weight is 3; it takes 17 bytes. *)
Example compact_far_index : let t := TStruct [mkF max_index Required TU64] in let v := VStruct [Some (VU64 18446744073709551615)] in
  wt DOut v t /\ ty_wf t /\ size v t = 17 /\ weight 0 v = 3.
Proof. cbv zeta. split; [cbn; unfold two64; lia|]. split; [wf|]. split; vm_compute; reflexivity. Qed.
(** Passed on: a message with an unknown field and a repeated field gets shorter. *)
Example compact_forwarded : exists v bs, deserialize isize_max fp_type (fp_bytes ++ spec_header 9 0 false) = Ok v [] /\
  serialize v fp_type = Some bs /\ lenN bs < lenN fp_bytes.
Proof. exists fp_value, (spec_encode true fp_value fp_type). split; [|split]; vm_compute; reflexivity. Qed.
(** An encoder that pads every element of an array to the size of the longest one is not linear: 100 short strings and one of
    1000 bytes. *)
Definition padded_array (vs : list bytes) : bytes :=
  let width := fold_left N.max (map (@lenN N) vs) 0 in
  flat_map (fun b => spec_varint (lenN b) ++ b ++ repeat 0 (N.to_nat (width - lenN b))) vs.
Example padding_is_not_linear : let vs := repeat 7 1000 :: map (fun _ => []) (repeat 0 100) in
  18 * weight 0 (VArr (map VBytes vs)) < lenN (padded_array vs).
Proof. vm_compute. reflexivity. Qed.
