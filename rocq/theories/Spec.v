(** The wire format, transcribed from /repo/README.md 539-640 ("Binary encoding"), independent of
    the generated code. *)
From Verif Require Export SpecPrim Types.

(** README 630: [U64], with the special behaviour for field values. *)
Definition spec_u64 (is_field : bool) (n : N) : bytes :=
  if is_field then
    if n =? 0 then []
    else if n <? 567382630219904 then spec_varint n
    else le_bytes 8 n
  else spec_varint n.

(** README 626-640 (built-in types), 591-625 (structs and choices). The one place where the README
    and the code differ is the header of [[Unit]] fields: the README's description of size mode 2
    would apply to them, but the code uses size mode 3 (see [readme_unit_array_header_refuted]). *)
Fixpoint spec_encode (is_field : bool) (v : val) (t : ty) {struct v} : bytes :=
  match v, t with
  | VUnit, TUnit => []
  | VF64 b, TF64 => if is_field && (b =? 0) then [] else le_bytes 8 b
  | VU64 n, TU64 => spec_u64 is_field n
  | VS64 z, TS64 => spec_u64 is_field (spec_zigzag z)
  | VBool b, TBool => spec_u64 is_field (if b then 1 else 0)
  | VBytes bs, TBytes => bs
  | VString s, TString => utf8_encode s
  | VUnits n, TArray TUnit => spec_u64 is_field n
  | VArr vs, TArray e =>
      flat_map (fun v =>
        let b := spec_encode false v e in
        if sized_element e then spec_varint (lenN b) ++ b else b) vs
  | VStruct ovs, TStruct fs =>
      concat (map2 (fun ov f => match ov with
        | Some v => let b := spec_encode true v (f_type f) in
                    spec_header (f_index f) (lenN b) (integer_encoded (f_type f)) ++ b
        | None => []
        end) ovs fs)
  | VChoice i p fb, TChoice fs =>
      match find_field i fs with
      | None => []
      | Some f =>
          let b := spec_encode true p (f_type f) in
          spec_header (f_index f) (lenN b) (integer_encoded (f_type f)) ++ b ++
          match fb with Some v' => spec_encode true v' t | None => [] end
      end
  | _, _ => []
  end.
