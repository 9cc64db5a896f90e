(** C86: concrete messages, and decoders for which the bound fails. *)
From Verif Require Import FootprintTs2 Properties25 Examples1.

(** The hypotheses are met by a message with every kind of field: an array of structs, of which one has a byte string, a
    choice with a fallback, and a field the reader does not know. *)
Definition fp_inner : ty := TStruct [mkF 0 Required TBytes; mkF 1 Optional TString].
Definition fp_type : ty := TStruct [mkF 0 Required (TArray fp_inner); mkF 1 Optional (TChoice [mkF 0 Required TUnit; mkF 1 Optional TU64]); mkF 2 Optional (TArray TUnit)].
Definition fp_value : val := VStruct [Some (VArr [VStruct [Some (VBytes [1; 2; 3]); None]; VStruct [Some (VBytes []); Some (VString [955])]]);
  Some (VChoice 1 (VU64 1000) (Some (VChoice 0 VUnit None))); Some (VUnits 300)].
Definition fp_bytes : bytes := spec_encode true fp_value fp_type ++ spec_header 9 2 false ++ [7; 7].
Example fp_wf : ty_wf fp_type. Proof. wf. Qed.
Example fp_decodes : deserialize isize_max fp_type fp_bytes = Ok fp_value []. Proof. vm_compute. reflexivity. Qed.
Example fp_weights : weight 0 fp_value = 24 /\ weight 1 fp_value = 324 /\ breadth fp_type = 17 /\ lenN fp_bytes = 28.
Proof. repeat split; vm_compute; reflexivity. Qed.
Example fp_small : weight 0 fp_value <= 17 * (28 + 1).
Proof.
  pose proof (decoded_messages_are_linear isize_max fp_type fp_bytes fp_value [] fp_wf ltac:(vm_compute; repeat constructor) fp_decodes) as H.
  vm_compute in H. vm_compute. exact H.
Qed.
(** The bound is reached up to a constant: [n] empty structs with three absent fields each take [n] bytes. *)
Definition fp_empty : ty := TStruct [mkF 0 Optional TU64; mkF 1 Optional TU64; mkF 2 Optional TU64].
Definition fp_empties : val := VStruct [Some (VArr (repeat (VStruct [None; None; None]) 1000))].
Example fp_tight : exists bs, lenN bs = 1003 /\ bytes_ok bs /\ deserialize isize_max (TStruct [mkF 0 Required (TArray fp_empty)]) bs = Ok fp_empties [] /\
  weight 0 fp_empties = 4003.
Proof.
  exists (spec_header 0 1000 false ++ repeat 1 1000). split; [vm_compute; reflexivity|]. split.
  - apply Forall_forall. intros x Hx. apply in_app_or in Hx as [Hx|Hx].
    + vm_compute in Hx. unfold byte_ok. destruct Hx as [<-|[<-|[<-|[]]]]; reflexivity.
    + apply repeat_spec in Hx as ->. unfold byte_ok. lia.
  - split; vm_compute; reflexivity.
Qed.

(** A decoder of arrays whose elements may read past their end (as those of TypeScript do): every one of 200 elements
    is a copy of what follows it. *)
Fixpoint overlapping_loop (fuel : nat) (element : N -> bytes -> res val) (bs : bytes) : res (list val) :=
  match fuel with
  | O => OutOfFuel
  | S fuel' =>
      match deserialize_varint bs with
      | Ok sz rest => bindr (element sz rest) (fun v _ => mapr (cons v) (overlapping_loop fuel' element (dropN sz rest)))
      | Err EOF => Ok [] []
      | Err e => Err e
      | Panic => Panic
      | Diverge => Diverge
      | OutOfFuel => OutOfFuel
      end
  end.
Definition fp_overlap : bytes := spec_varint 0 ++ repeat 1 200.
Example overlapping_is_not_linear : exists vs, overlapping_loop 300 (decode isize_max TBytes false) fp_overlap = Ok vs [] /\
  20000 <= weight 0 (VArr vs) /\ breadth (TArray TBytes) * (lenN fp_overlap + 1) = 404.
Proof.
  eexists. split; [vm_compute; reflexivity|]. split; vm_compute; [discriminate|reflexivity].
Qed.

(** The TypeScript message of the family for [n = 9]: 40 bytes, and every element has the nine bytes that follow it. *)
Example echo_9 : lenN (echo_message 9) = 40 /\
  match ts_deserialize echo_type (whole (echo_message 9)) with TsMessage v => weight 1 v | _ => 0 end = 111 /\
  deserialize isize_max echo_type (echo_message 9)
  = Ok (VStruct [Some (VArr (repeat (VStruct [Some (VBytes [])]) 9))]) [].
Proof. repeat split; vm_compute; reflexivity. Qed.
(** A larger one: 2,420 bytes make more than 40,000 bytes. *)
Example echo_200 : lenN (echo_message 200) <= 2420 /\
  exists v, ts_deserialize echo_type (whole (echo_message 200)) = TsMessage v /\ 40000 <= weight 1 v.
Proof. split; [apply message_len; lia|]. exact (echo_decodes 200 ltac:(lia)). Qed.
