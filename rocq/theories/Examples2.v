(** Concrete, non-trivial instances of the hypotheses of the theorems in Properties2.v. *)
From Verif Require Import TruncFacts2 Examples1.

(** A reader that knows fields 0 (String, required) and 2 (Bytes, optional); the writer sent an unknown
    raw integer field 1, an unknown struct field 7, field 2 twice. *)
Definition ex_reader : list (field_of ty) := [mkF 0 Required TString; mkF 2 Optional TBytes].
Definition ex_items : list item :=
  [IRaw 1 true [4; 0; 0]; IField (mkF 2 Asymmetric TBytes) (VBytes [1; 2; 3]);
   IField (mkF 7 Required ex_response) (VChoice 0 VUnit None);
   IField (mkF 0 Required TString) (VString [65]);
   IField (mkF 2 Asymmetric TBytes) (VBytes [9])].
Lemma ex_items_ok : Forall (item_ok ex_reader) ex_items.
Proof.
  assert (ty_wf ex_response) as W by wf.
  assert (forall l, l = [1; 2; 3] \/ l = [9] -> bytes_ok l) as B
    by (intros l [-> | ->]; repeat constructor).
  repeat (apply Forall_cons || apply Forall_nil); (split; [vm_compute; discriminate|]).
  - split; [reflexivity|]. split; [repeat constructor|]. intros _ _ _. exists 4, [0; 0]. vm_compute. auto.
  - split; [apply B; auto|]. split; exact I.
  - split; [wtt|]. split; [exact W|exact I].
  - split; [wtt|]. split; exact I.
  - split; [apply B; auto|]. split; exact I.
Qed.
(** C15, C16 *)
Example ex_items_read : deserialize isize_max (TStruct ex_reader) (flat_map item_bytes ex_items)
  = Ok (VStruct [Some (VString [65]); Some (VBytes [1; 2; 3])]) [].
Proof. vm_compute. reflexivity. Qed.
Example ex_required_missing :
  deserialize isize_max (TStruct ex_reader) (flat_map item_bytes (firstn 3 ex_items)) = Err InvalidData.
Proof. vm_compute. reflexivity. Qed.
(** C17: an unknown case first, then an optional one, then an asymmetric one; bytes after it are
    ignored. *)
Example ex_choice_chain : deserialize isize_max ex_response
  (flat_map item_bytes [IRaw 9 false [1; 2]; IField (mkF 2 Optional TString) (VString [66]);
                        IField (mkF 3 Asymmetric TUnit) VUnit] ++ [0; 0; 255])
  = Ok (VChoice 2 (VString [66]) (Some (VChoice 3 VUnit None))) [].
Proof. vm_compute. reflexivity. Qed.
(** C18, C19, C23: the message of Examples1.v delivered byte by byte and in pieces of three. *)
Fixpoint pieces (n : nat) (k : N) (bs : bytes) : list bytes :=
  match n with O => [] | S n' => match bs with [] => [] | _ => takeN k bs :: pieces n' k (dropN k bs) end end.
Example ex_chunks : match serialize ex_msg ex_v1 with
  | Some bs => let o c := outcome_of (cdeserialize 100 isize_max ex_v1 c) in
      o (pieces 100 1 bs) = Success (to_in ex_msg ex_v1) /\ o (pieces 100 3 bs) = o [bs] /\
      concat (pieces 100 3 bs) = bs /\ length bs = 76%nat
  | None => False end.
Proof. vm_compute. auto. Qed.
Example ex_confined :
  cdecode 10 isize_max TBytes true 2 (RTake 2 (RBase [[1]; [2; 3]; [4]]))
  = COk (VBytes [1; 2]) (RTake 0 (RBase [[3]; [4]])).
Proof. vm_compute. reflexivity. Qed.
(** C20, C21: visits below the top level. *)
Definition ex_nested : ty := TStruct [mkF 0 Optional TU64; mkF 1 Required (TArray (TStruct [mkF 5 Optional TBytes]))].
Example ex_nested_panic : deserialize isize_max ex_nested
  (spec_varint 2 ++ [3] ++ spec_header 1 12 false ++ spec_varint 11 ++ spec_varint 23 ++ spec_varint 9223372036854775808)
  = Panic.
Proof. vm_compute. reflexivity. Qed.
Example ex_nested_diverge : deserialize isize_max ex_nested
  (spec_varint 2 ++ [3] ++ spec_header 1 2 false ++ spec_varint 1 ++ spec_varint 1)
  = Diverge.
Proof. vm_compute. reflexivity. Qed.
(** C22 *)
Example ex_cut_header : cut_header 2 3 false [23] /\ cut_header 1 3 true (spec_header 1 3 true).
Proof.
  split; [left; exists [7]; vm_compute; split; [discriminate|reflexivity]|right]. repeat split; discriminate.
Qed.
Example ex_cut_bytes : deserialize isize_max (TStruct ex_reader)
  (flat_map item_bytes [IField (mkF 0 Required TString) (VString [65])] ++ spec_header 2 3 false ++ [1])
  = Ok (VStruct [Some (VString [65]); Some (VBytes [1])]) [].
Proof. vm_compute. reflexivity. Qed.
(** C24: short writes and interruptions, then a failure after 7 bytes. *)
Example ex_writer : match serialize ex_msg ex_v1 with
  | Some bs => let '(s, _, out) := serialize_to scheduled_writer 100
      [Accept 1; Interrupted; Accept 100; Accept 2; Interrupted; Accept 3; Fail; Accept 100] ex_msg ex_v1 in
      s = WFailed /\ out = takeN 7 bs
  | None => False end.
Proof. vm_compute. auto. Qed.
Example ex_capacity : match serialize ex_msg ex_v1 with
  | Some bs => (let '(s, _, out) := serialize_to capacity_writer 100 75 ex_msg ex_v1 in s = WFailed /\ out = takeN 75 bs)
      /\ (let '(s, _, out) := serialize_to capacity_writer 100 76 ex_msg ex_v1 in s = WOk /\ out = bs)
  | None => False end.
Proof. vm_compute. auto. Qed.
