(** Which messages survive a trip through TypeScript. A specification. *)
From Verif Require Export TsCodec.

(** No string starts with U+FEFF ([TextDecoder] drops it), and no [[Unit]] is longer than JavaScript
    arrays can be. *)
Fixpoint ts_faithful (v : val) : Prop :=
  match v with
  | VString s => hd_error s <> Some 65279
  | VUnits n => n < 4294967296
  | VArr vs => allP ts_faithful vs
  | VStruct ovs => allP (fun ov => match ov with Some v => ts_faithful v | None => True end) ovs
  | VChoice _ p fb => ts_faithful p /\ match fb with Some v' => ts_faithful v' | None => True end
  | _ => True
  end.

(** A 64-bit pattern is a NaN of IEEE 754 if all 11 bits of its exponent are set and its significand is not zero; the sign
    is in bit 63. The canonical one has only the first bit of the significand set. *)
Definition ieee_nan (b : N) : Prop := exists sign significand, b = sign * 2 ^ 63 + 2047 * 2 ^ 52 + significand /\ 0 < significand < 2 ^ 52.
Definition canonical_nan : N := 2047 * 2 ^ 52 + 2 ^ 51.
(** No [F64] is a NaN other than the canonical one: then JavaScript holds the message unchanged. *)
Fixpoint js_exact (v : val) : Prop :=
  match v with
  | VF64 b => ieee_nan b -> b = canonical_nan
  | VArr vs => allP js_exact vs
  | VStruct ovs => allP (fun ov => match ov with Some v => js_exact v | None => True end) ovs
  | VChoice _ p fb => js_exact p /\ match fb with Some v' => js_exact v' | None => True end
  | _ => True
  end.
(** The messages are the same but that NaNs became canonical. *)
Fixpoint same_but_nans (v v' : val) : Prop :=
  match v, v' with
  | VF64 b, VF64 b' => ieee_nan b /\ b' = canonical_nan \/ ~ ieee_nan b /\ b' = b
  | VArr vs, VArr vs' => all2P same_but_nans vs vs'
  | VStruct ovs, VStruct ovs' =>
      all2P (fun ov ov' => match ov, ov' with Some v, Some v' => same_but_nans v v' | None, None => True | _, _ => False end) ovs ovs'
  | VChoice i p fb, VChoice i' p' fb' =>
      i' = i /\ same_but_nans p p' /\ match fb, fb' with Some v, Some v' => same_but_nans v v' | None, None => True | _, _ => False end
  | _, _ => v' = v
  end.
