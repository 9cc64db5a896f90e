(** Concrete, non-trivial instances of the hypotheses of the theorems in Properties1.v. *)
From Verif Require Import PrimExtra.

(** Version 1 of a type with every construct. *)
Definition ex_response : ty := TChoice
  [mkF 0 Required TUnit; mkF 1 Required TString; mkF 2 Optional TString; mkF 3 Asymmetric TUnit].
Definition ex_v1 : ty := TStruct
  [mkF 0 Required TString; mkF 1 Asymmetric (TArray TS64); mkF 2 Optional (TArray TString);
   mkF 3 Required TF64; mkF 4 Optional ex_response; mkF 5 Required (TArray TUnit);
   mkF 6 Asymmetric TBytes; mkF 7 Required (TArray TF64)].
(** Version 2: field 1 becomes required, 2 is removed, 3 becomes asymmetric, 8 is added, the choice
    loses its optional case and its asymmetric case becomes required; fields are reordered. *)
Definition ex_response2 : ty := TChoice
  [mkF 3 Required TUnit; mkF 0 Required TUnit; mkF 1 Required TString].
Definition ex_v2 : ty := TStruct
  [mkF 8 Optional TBool; mkF 7 Required (TArray TF64); mkF 0 Required TString;
   mkF 1 Required (TArray TS64); mkF 3 Asymmetric TF64; mkF 4 Optional ex_response2;
   mkF 5 Required (TArray TUnit); mkF 6 Optional TBytes].
Definition ex_msg : val := VStruct
  [Some (VString [104; 233; 8364; 128512]); Some (VArr [VS64 (-1); VS64 9223372036854775807]);
   Some (VArr [VString []; VString [65]]); Some (VF64 9221120237041090560);
   Some (VChoice 2 (VString [120]) (Some (VChoice 3 VUnit (Some (VChoice 0 VUnit None)))));
   Some (VUnits 1000000000000000); Some (VBytes [0; 255]); Some (VArr [VF64 0; VF64 1])].

Ltac wf := cbn; unfold max_index; repeat (split || constructor || intro || lia);
  try (cbn in *; intuition (try lia; try discriminate)).

Ltac wtt := cbv -[N.lt N.le Z.lt Z.le];
  repeat match goal with
         | |- _ /\ _ => split
         | |- Forall _ _ => constructor
         | |- True => exact I
         | |- _ = _ => reflexivity
         | |- _ => lia
         end.

Example ex_v1_wf : ty_wf ex_v1. Proof. wf. Qed.
Example ex_v2_wf : ty_wf ex_v2. Proof. wf. Qed.
Example ex_msg_wt : wt DOut ex_msg ex_v1.
Proof.
  wtt.
Qed.
Example ex_size : size ex_msg ex_v1 = 76. Proof. vm_compute. reflexivity. Qed.
Example ex_safe : safe ex_v1 ex_v2. Proof. cbv. tauto. Qed.

(** C08-C10, C12: the hypotheses are met by [ex_msg], and the conclusions compute. *)
Example ex_round_trip : match serialize ex_msg ex_v1 with
  | Some bs => deserialize isize_max ex_v1 bs = Ok (to_in ex_msg ex_v1) [] /\ lenN bs = 76
  | None => False end.
Proof. vm_compute. auto. Qed.
Example ex_migrated : migrate ex_msg ex_v1 ex_v2 = VStruct
  [None; Some (VArr [VF64 0; VF64 1]); Some (VString [104; 233; 8364; 128512]);
   Some (VArr [VS64 (-1); VS64 9223372036854775807]); Some (VF64 9221120237041090560);
   Some (VChoice 3 VUnit None); Some (VUnits 1000000000000000); Some (VBytes [0; 255])].
Proof. reflexivity. Qed.
Example ex_evolution : match serialize ex_msg ex_v1 with
  | Some bs => deserialize isize_max ex_v2 bs = Ok (migrate ex_msg ex_v1 ex_v2) []
  | None => False end.
Proof. vm_compute. reflexivity. Qed.

(** C11: two different messages (they differ only in a fallback) with different bytes. *)
Example ex_injective :
  serialize (VChoice 2 (VString [120]) (Some (VChoice 0 VUnit None))) ex_response <>
  serialize (VChoice 2 (VString [120]) (Some (VChoice 3 VUnit (Some (VChoice 0 VUnit None))))) ex_response.
Proof. vm_compute. discriminate. Qed.

(** C01-C05, C07: values in every size class. *)
Example ex_varints : map (fun n => lenN (serialize_varint n))
  [0; 127; 128; 16511; 16512; 2113664; 270549120; 34630287488; 4432676798592; 567382630219904;
   72624976668147839; 72624976668147840; 18446744073709551615] =
  [1; 1; 2; 2; 3; 4; 5; 6; 7; 8; 8; 9; 9].
Proof. vm_compute. reflexivity. Qed.
Example ex_readme_16500 : lenN (serialize_varint 16500) = 2 /\ base128_len 10 16500 = 3.
Proof. vm_compute. auto. Qed.
Example ex_alias : varint_alias 5 <> spec_varint 5 /\
  deserialize_varint (varint_alias 5) = Ok 5 [] /\ deserialize_varint (spec_varint 5) = Ok 5 [].
Proof. vm_compute. repeat split. discriminate. Qed.
Example ex_zigzag : map zigzag_encode [0; -1; 1; -2; 2; 9223372036854775807; -9223372036854775808]%Z
  = [0; 1; 2; 3; 4; 18446744073709551614; 18446744073709551615].
Proof. vm_compute. reflexivity. Qed.
Example ex_header : deserialize_field_header (serialize_field_header max_index 3 true ++ [4; 5; 6; 7])
  = Ok (max_index, 3) [4; 5; 6; 7] /\ spec_varint_len 4 = 3.
Proof. vm_compute. auto. Qed.

(** C14: an unsafe pair with compatible common fields, and the failing message. *)
Definition ex_u1 : list (field_of ty) := [mkF 0 Required TU64; mkF 1 Optional TString].
Definition ex_u2 : list (field_of ty) := [mkF 0 Required TU64; mkF 1 Required TString].
Example ex_unsafe : ~ safe (TStruct ex_u1) (TStruct ex_u2) /\ ~ safe (TChoice ex_u1) (TChoice ex_u2).
Proof. cbv. split; intros [(_ & [H _] & _) _]; discriminate H. Qed.
Example ex_unsafe_common : forall f g, In f ex_u1 -> In g ex_u2 -> f_index f = f_index g ->
  safe (f_type f) (f_type g).
Proof. cbn. intros f g [<-|[<-|[]]] [<-|[<-|[]]] E; cbn in *; auto; discriminate E. Qed.
Example ex_unsafe_fails : match serialize (VStruct [Some (VU64 7); None]) (TStruct ex_u1) with
  | Some bs => deserialize isize_max (TStruct ex_u2) bs = Err InvalidData | None => False end.
Proof. vm_compute. reflexivity. Qed.
Example ex_unsafe_choice_fails :
  match serialize (VChoice 1 (VString [65]) None) (TChoice ex_u2) with
  | Some bs => deserialize isize_max (TChoice ex_u1) bs = Err EOF | None => False end.
Proof. vm_compute. reflexivity. Qed.

(** C49: usable types of both kinds. *)
Example ex_usable : usable ex_v1 /\ usable ex_response /\ lenN (fields_of ex_v1) <= max_index.
Proof.
  split; [|split; [|vm_compute; discriminate]].
  - split; [exact I|]. split; [exact ex_v1_wf|]. exists ex_msg. exact ex_msg_wt.
  - split; [exact I|]. split; [wf|]. exists (VChoice 0 VUnit None). wtt.
Qed.

(** C50 *)
Example ex_enum : serialize (VChoice 0 VUnit None) ex_response = Some [1].
Proof. vm_compute. reflexivity. Qed.
