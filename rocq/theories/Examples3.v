(** Concrete, non-trivial instances of the hypotheses of the theorems in Properties3.v. *)
From Verif Require Import TsTop Examples1 Examples2.

(** [ex_msg] of Examples1.v with a [[Unit]] that JavaScript can hold, and a NaN. *)
Definition ex_js_msg : val := VStruct
  [Some (VString [104; 233; 8364; 128512]); Some (VArr [VS64 (-1); VS64 9223372036854775807]);
   Some (VArr [VString []; VString [65]]); Some (VF64 9221120237041090561);
   Some (VChoice 2 (VString [120]) (Some (VChoice 3 VUnit (Some (VChoice 0 VUnit None)))));
   Some (VUnits 1000000); Some (VBytes [0; 255]); Some (VArr [VF64 0; VF64 1])].
Example ex_js_wt : wt DOut ex_js_msg ex_v1. Proof. wtt. Qed.
Example ex_js_faithful : ts_faithful ex_js_msg. Proof. cbn. repeat split; try discriminate. Qed.
Example ex_js_inexact : js_val ex_js_msg <> ex_js_msg. Proof. vm_compute. discriminate. Qed.
Example ex_js_exact : js_exact ex_msg. Proof. apply same_js_exact. vm_compute. reflexivity. Qed.
(** Infinity is not a NaN; the signalling NaN with the smallest significand becomes the canonical one. *)
Example infinity_kept : js_bits 9218868437227405312 = 9218868437227405312. Proof. reflexivity. Qed.
Example other_nan : js_bits 18442240474082181121 = canonical_nan /\ js_bits 9218868437227405313 = canonical_nan. Proof. split; reflexivity. Qed.
(** C25 *)
Example ex_ts_bytes : match serialize ex_msg ex_v1 with
  | Some bs => ts_serialize_full ex_msg ex_v1 = JOk (bs, 76) | None => False end.
Proof. vm_compute. reflexivity. Qed.
(** C26, C29: inside a larger buffer, read with the same and with the new schema. *)
Example ex_ts_round_trip : match ts_serialize ex_js_msg ex_v1 with
  | JOk bs =>
      let w := mkView ([1; 2; 3] ++ bs ++ [4; 5]) 3 (lenN bs) in
      ts_deserialize ex_v1 w = TsMessage (js_val (to_in ex_js_msg ex_v1)) /\
      ts_deserialize ex_v2 w = TsMessage (js_val (migrate ex_js_msg ex_v1 ex_v2)) /\
      deserialize isize_max ex_v2 bs = Ok (js_val (migrate ex_js_msg ex_v1 ex_v2)) []
  | _ => False end.
Proof. vm_compute. auto. Qed.
Example ex_ts_compat : compat ex_v1 ex_v2 /\ compat ex_v2 ex_v1.
Proof.
  pose proof ex_v1_wf as W1. pose proof ex_v2_wf as W2. pose proof ex_safe as S.
  split; apply safe_compat; auto. now apply safe_sym.
Qed.
(** C28: malformed input, bounded outcome. *)
Example ex_ts_malformed : ts_deserialize ex_v1 (whole [255; 255; 255; 0; 0]) = TsError.
Proof. vm_compute. reflexivity. Qed.
(** C54: unknown fields, and field 2 twice: the last one counts. *)
Example ex_ts_items : Forall item_faithful ex_items /\
  ts_deserialize (TStruct ex_reader) (whole (flat_map item_bytes ex_items))
  = TsMessage (VStruct [Some (VString [65]); Some (VBytes [9])]).
Proof. split; [repeat constructor; discriminate|vm_compute; reflexivity]. Qed.
Example ex_ts_choice : ts_deserialize ex_response
  (whole (flat_map item_bytes [IRaw 9 false [1; 2]; IField (mkF 2 Optional TString) (VString [66]);
                        IField (mkF 3 Asymmetric TUnit) VUnit] ++ [0; 0; 255]))
  = TsMessage (VChoice 2 (VString [66]) (Some (VChoice 3 VUnit None))).
Proof. vm_compute. reflexivity. Qed.
