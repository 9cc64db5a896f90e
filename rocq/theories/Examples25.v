(** C88: a concrete message on its way through a relay. *)
From Verif Require Import ForwardFacts Properties27 Examples23 Examples1.

(** The bytes: a field twice, the nested struct with a header of a form the writer does not use, a boolean written in two bytes,
    an unknown field in between. The relay keeps the first of the two and writes everything in its own form. *)
Definition relay_type : ty := TStruct [mkF 0 Required (TStruct [mkF 0 Required TBool]); mkF 1 Optional TU64; mkF 2 Optional (TChoice [mkF 0 Required TUnit; mkF 1 Optional TBytes])].
Definition relay_bytes : bytes :=
  spec_varint 2 ++ spec_varint 0 ++ spec_header 77 3 false ++ [1; 2; 3] ++ spec_header 1 8 true ++ le_bytes 8 5 ++ spec_header 1 1 true ++ spec_varint 6
  ++ spec_header 2 4 false ++ spec_header 1 2 false ++ [65; 66].
Definition relay_value : val := VStruct [Some (VStruct [Some (VBool false)]); Some (VU64 5); None].
Example relay_wf : ty_wf relay_type /\ symmetric relay_type.
Proof. split; [wf|]. cbn. repeat split; discriminate. Qed.
(** The last field ends before its fallback: the choice is rejected. *)
Example relay_rejects : forall v rest, deserialize isize_max relay_type relay_bytes <> Ok v rest.
Proof. intros v rest. vm_compute. discriminate. Qed.
(** With the fallback it is read. *)
Definition relay_bytes2 : bytes :=
  spec_varint 2 ++ spec_varint 0 ++ spec_header 77 3 false ++ [1; 2; 3] ++ spec_header 1 8 true ++ le_bytes 8 5 ++ spec_header 1 1 true ++ spec_varint 6
  ++ spec_header 2 6 false ++ spec_header 1 2 false ++ [65; 66] ++ spec_header 0 0 false.
Definition relay_value2 : val := VStruct [Some (VStruct [Some (VBool false)]); Some (VU64 5); Some (VChoice 1 (VBytes [65; 66]) (Some (VChoice 0 VUnit None)))].
Example relay_reads : deserialize isize_max relay_type relay_bytes2 = Ok relay_value2 [].
Proof. vm_compute. reflexivity. Qed.
Example relay_writes : exists bs, serialize relay_value2 relay_type = Some bs /\ deserialize isize_max relay_type bs = Ok relay_value2 [] /\ bs <> relay_bytes2.
Proof.
  destruct (symmetric_messages_can_be_forwarded isize_max relay_type relay_bytes2 relay_value2 [] (proj1 relay_wf) (proj2 relay_wf)) as (_ & bs & E & _ & E2 & _).
  - unfold bytes_ok, byte_ok. cbn. repeat (apply Forall_cons; [lia|]). apply Forall_nil.
  - vm_compute. reflexivity.
  - exact relay_reads.
  - exists bs. split; [exact E|]. split; [exact E2|]. intros ->. vm_compute in E. discriminate E.
Qed.
